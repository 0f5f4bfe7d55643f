(** Properties C36 (reductions) and C46 (negative dimension arguments), with the exact result
    of the functions that act on one axis. *)
From Coq Require Import ZArith Bool Lia List.
From Verif Require Import Prelude ShapeCoreModel ShapeCoreSpec ShapeCoreProofs ShapeBroadcastProps ShapeViewProps.
Import ListNotations.
Open Scope Z_scope.

Lemma nth_error_ext' : forall A (l r : list A), length l = length r /\
  (forall i, (i < length l)%nat -> nth_error l i = nth_error r i) -> l = r.
Proof.
  induction l as [|x l IH]; intros [|y r] [L H]; simpl in L; try lia; auto. f_equal.
  - specialize (H 0%nat). simpl in H. specialize (H ltac:(lia)). congruence.
  - apply IH. split; [lia|]. intros i Hi. apply (H (S i)). simpl. lia.
Qed.
Lemma and_iff_compat_l_dep : forall A B C : Prop, (A -> (B <-> C)) -> (A /\ B <-> A /\ C).
Proof. tauto. Qed.
Lemma wrap_valid : forall d (s : list Z) k, denotes (length s) d k -> wrap_dim d (zlen s) = Some (Z.of_nat k).
Proof.
  intros d s k H. apply wrap_denotes; eauto. intros ->. destruct H as [H _]. simpl in H. lia.
Qed.
Lemma wrap_inv : forall d (s : list Z) w, s <> [] -> wrap_dim d (zlen s) = Some w ->
  exists k, denotes (length s) d k /\ w = Z.of_nat k.
Proof. intros d s w Hs H. now apply wrap_denotes in H. Qed.
Lemma wraps_valid : forall dims (s : list Z) ks, Forall2 (denotes (length s)) dims ks ->
  mapM (fun d => wrap_dim d (zlen s)) dims = Some (map Z.of_nat ks).
Proof.
  intros dims s ks H. induction H; simpl; auto. rewrite (wrap_valid _ _ _ H). cbn [obind]. now rewrite IHForall2.
Qed.
Lemma wraps_inv : forall dims (s : list Z) ws, s <> [] -> mapM (fun d => wrap_dim d (zlen s)) dims = Some ws ->
  exists ks, Forall2 (denotes (length s)) dims ks /\ ws = map Z.of_nat ks.
Proof.
  intros dims s ws Hs. revert ws. induction dims as [|d dims IH]; simpl; intros ws H.
  - injection H as <-. exists []. split; constructor.
  - destruct (wrap_dim d (zlen s)) as [w|] eqn:E; [|discriminate]. cbn [obind] in H.
    destruct (mapM _ dims) as [ws'|] eqn:M; [|discriminate]. cbn [obind] in H. injection H as <-.
    destruct (IH _ eq_refl) as (ks & F & ->). apply wrap_inv in E; auto. destruct E as (k & D & ->).
    exists (k :: ks). split; auto.
Qed.
Lemma zmem_nat : forall k ks, zmem (Z.of_nat k) (map Z.of_nat ks) = existsb (Nat.eqb k) ks.
Proof.
  intros k ks. unfold zmem. induction ks as [|j ks IH]; simpl; auto. rewrite IH. f_equal.
  destruct (Nat.eqb_spec k j), (Z.eqb_spec (Z.of_nat k) (Z.of_nat j)); auto; lia.
Qed.
Lemma existsb_In : forall k ks, existsb (Nat.eqb k) ks = true <-> In k ks.
Proof.
  intros k ks. rewrite existsb_exists. split.
  - intros (x & H & E). apply Nat.eqb_eq in E. now subst.
  - intros H. exists k. split; auto. apply Nat.eqb_refl.
Qed.

(** ** C36 *)
Lemma smd_valid : forall self dims ks keep, dims <> [] -> Forall2 (denotes (length self)) dims ks ->
  sum_mean_dim self (Some dims) keep =
  Some (if keep then imap (fun i x => if existsb (Nat.eqb i) ks then 1 else x) 0 self
        else keep_axes (fun i => negb (existsb (Nat.eqb i) ks)) self).
Proof.
  intros self dims ks keep Hd H. unfold sum_mean_dim.
  destruct (Z.eqb_spec (zlen dims) 0) as [E|_];
    [destruct dims; [congruence|rewrite zlen_cons in E; pose proof (zlen_nonneg _ dims); lia]|].
  rewrite (wraps_valid _ _ _ H). cbn [obind].
  rewrite (collect_imap _ (fun i x => if existsb (Nat.eqb i) ks then if keep then [1] else [] else [x])).
  - f_equal. destruct keep.
    + rewrite <- concat_single. f_equal. apply imap_ext. intros i x _. simpl. now destruct (existsb _ _).
    + unfold keep_axes. rewrite <- concat_keep. f_equal. apply imap_ext. intros i x _. simpl. now destruct (existsb _ _).
  - intros i x Hx. rewrite zmem_nat, pyidx_nat, Hx. destruct (existsb _ _), keep; reflexivity.
Qed.
Lemma smd_inv : forall self dims keep out, self <> [] -> dims <> [] ->
  sum_mean_dim self (Some dims) keep = Some out -> exists ks, Forall2 (denotes (length self)) dims ks.
Proof.
  intros self dims keep out Hs Hd H. unfold sum_mean_dim in H.
  destruct (Z.eqb_spec (zlen dims) 0) as [E|_];
    [destruct dims; [congruence|rewrite zlen_cons in E; pose proof (zlen_nonneg _ dims); lia]|].
  destruct (mapM (fun d => wrap_dim d (zlen self)) dims) as [ws|] eqn:M.
  - apply wraps_inv in M; auto. destruct M as (ks & F & _). eauto.
  - exfalso. destruct self as [|x self]; [congruence|]. revert H. rewrite zrange_cons by (rewrite zlen_cons; pose proof (zlen_nonneg _ self); lia).
    unfold collect. simpl. discriminate.
Qed.
Theorem C36_dropped_dims : forall self dims out, self <> [] -> dims <> [] ->
  (sum_mean_dim self (Some dims) false = Some out <->
   exists ks, Forall2 (denotes (length self)) dims ks /\
     out = keep_axes (fun i => negb (existsb (Nat.eqb i) ks)) self).
Proof.
  intros self dims out Hs Hd. split.
  - intros H. destruct (smd_inv _ _ _ _ Hs Hd H) as [ks F]. exists ks. split; auto.
    rewrite (smd_valid _ _ _ false Hd F) in H. now injection H.
  - intros (ks & F & ->). now rewrite (smd_valid _ _ _ false Hd F).
Qed.
Theorem C36_kept_dims : forall self dims out, self <> [] -> dims <> [] ->
  (sum_mean_dim self (Some dims) true = Some out <->
   exists ks, Forall2 (denotes (length self)) dims ks /\ length out = length self /\
     forall i, (i < length self)%nat -> (In i ks -> nth_error out i = Some 1) /\
       (~ In i ks -> nth_error out i = nth_error self i)).
Proof.
  intros self dims out Hs Hd.
  assert (P : forall ks, Forall2 (denotes (length self)) dims ks ->
    forall i, (i < length self)%nat ->
    nth_error (imap (fun i x => if existsb (Nat.eqb i) ks then 1 else x) 0 self) i =
    if existsb (Nat.eqb i) ks then Some 1 else nth_error self i).
  { intros ks F i Hi. rewrite imap_nth. simpl. destruct (nth_error self i) eqn:E; [|apply nth_error_None in E; lia].
    simpl. now destruct (existsb _ _). }
  split.
  - intros H. destruct (smd_inv _ _ _ _ Hs Hd H) as [ks F]. exists ks. split; auto.
    rewrite (smd_valid _ _ _ true Hd F) in H. injection H as <-. split; [now rewrite imap_length|].
    intros i Hi. rewrite (P ks F i Hi). split; intros Hin.
    + now rewrite (proj2 (existsb_In i ks) Hin).
    + destruct (existsb _ _) eqn:E; auto. apply existsb_In in E. contradiction.
  - intros (ks & F & L & H). rewrite (smd_valid _ _ _ true Hd F). f_equal. apply nth_error_ext'.
    rewrite imap_length. split; [lia|]. intros i Hi. rewrite (P ks F i Hi). destruct (H i Hi) as [H1 H2].
    destruct (existsb _ _) eqn:E; [apply existsb_In in E; now rewrite H1|].
    rewrite H2; auto. intros Hin. apply existsb_In in Hin. congruence.
Qed.
Theorem C36_no_dims_reduces_all : forall self dims, dims = None \/ dims = Some [] ->
  sum_mean_dim self dims false = Some [] /\ sum_mean_dim self dims true = Some (repeat 1 (length self)).
Proof.
  intros self dims H.
  assert (E : forall keep, sum_mean_dim self dims keep = Some (if keep then repeat 1 (length self) else [])).
  { intros keep. destruct (list_eq_dec Z.eq_dec self []) as [->|Hs].
    - destruct H as [-> | ->], keep; reflexivity.
    - assert (E : sum_mean_dim self dims keep = sum_mean_dim self (Some (zrange 0 (zlen self))) keep).
      { unfold sum_mean_dim. destruct H as [-> | ->]; simpl; destruct (zlen (zrange 0 (zlen self)) =? 0); reflexivity. }
      rewrite E. assert (L : (0 < length self)%nat) by (destruct self; [congruence|simpl; lia]).
      rewrite (smd_valid _ _ (seq 0 (length self))).
      + f_equal. assert (A : forall i x, nth_error self i = Some x -> existsb (Nat.eqb i) (seq 0 (length self)) = true).
        { intros i x Hx. apply existsb_In, in_seq. assert (i < length self)%nat by (apply nth_error_Some; congruence). lia. }
        destruct keep.
        * rewrite (imap_ext _ _ _ (fun _ _ => 1)). { clear. generalize 0%nat. induction self; intros; simpl; f_equal; auto. }
          intros i x Hx. simpl. now rewrite (A i x Hx).
        * unfold keep_axes. rewrite (keep_ext _ (fun _ => false)); [apply keep_none|].
          intros i Hi. simpl. destruct (nth_error self i) eqn:Hx; [|apply nth_error_None in Hx; lia]. now rewrite (A i z Hx).
      + intros Z0. apply (f_equal (@length Z)) in Z0. rewrite zrange_length in Z0. unfold zlen in Z0. simpl in Z0. lia.
      + unfold zrange, zlen. rewrite Z.sub_0_r, Nat2Z.id. clear.
        assert (G : forall l, (forall x, In x l -> x < length self)%nat ->
          Forall2 (denotes (length self)) (map (fun k => 0 + Z.of_nat k) l) l).
        { induction l; simpl; intros H; constructor; auto. unfold denotes. specialize (H a). lia. }
        apply G. intros x Hx. apply in_seq in Hx. lia. }
  split; apply E.
Qed.
(** On a rank-0 tensor the dims are never looked at. *)
Theorem C36_rank_zero_dims_unchecked_refuted : forall dims keep, sum_mean_dim [] dims keep = Some [].
Proof. intros dims keep. unfold sum_mean_dim. reflexivity. Qed.
Theorem C36_max_dim_results_agree : forall self dim keep,
  max_dim self dim keep = option_map (fun o => (o, o)) (sum_mean_dim self (Some [dim]) keep).
Proof. intros. unfold max_dim. now destruct (sum_mean_dim self (Some [dim]) keep). Qed.
Theorem C36_argmax_is_a_reduction : forall self dim keep, self <> [] ->
  argmax self (Some dim) keep = sum_mean_dim self (Some [dim]) keep.
Proof.
  intros self dim keep Hs. unfold argmax, reduce_along_dim. destruct (wrap_dim dim (zlen self)) as [w|] eqn:E; cbn [obind].
  - apply wrap_inv in E; auto. destruct E as (k & D & ->).
    rewrite (smd_valid _ _ [k]) by first [discriminate | constructor; [exact D|constructor]].
    rewrite (collect_imap _ (fun i x => if existsb (Nat.eqb i) [k] then if keep then [1] else [] else [x])).
    + f_equal. destruct keep.
      * rewrite <- concat_single. f_equal. apply imap_ext. intros i x _. cbn [plus]. now destruct (existsb _ _).
      * unfold keep_axes. rewrite <- concat_keep. f_equal. apply imap_ext. intros i x _. cbn [plus]. now destruct (existsb _ _).
    + intros i x Hx. rewrite pyidx_nat, Hx. simpl. rewrite orb_false_r.
      destruct (Nat.eqb_spec i k), (Z.eqb_spec (Z.of_nat i) (Z.of_nat k)); try lia; destruct keep; reflexivity.
  - symmetry. destruct (sum_mean_dim self (Some [dim]) keep) as [o|] eqn:S; auto. exfalso.
    destruct (smd_inv self [dim] keep o Hs ltac:(discriminate) S) as [ks F]. inversion F; subst.
    apply wrap_valid in H1. congruence.
Qed.
Theorem C36_unpatched_argmax_without_dim : forall self keep, argmax self None keep = Some [].
Proof. reflexivity. Qed.
(** The upstream argmax loses the kept dims; [patched_argmax] in ShapeMiscModel.v is the function used. *)
Theorem C36_unpatched_argmax_ignores_keepdim : forall self, self <> [] ->
  argmax self None true = Some [] /\ sum_mean_dim self None true = Some (repeat 1 (length self)) /\
  repeat 1 (length self) <> [].
Proof.
  intros self Hs. split; [reflexivity|]. split; [apply (C36_no_dims_reduces_all self None); auto|].
  destruct self; [congruence|discriminate].
Qed.
Example C36_nonvacuous : sum_mean_dim [2; 3; 4] (Some [-1; 0]) false = Some [3] /\
  sum_mean_dim [2; 3; 4] (Some [-1; 0]) true = Some [1; 3; 1] /\
  sum_mean_dim [2; 3; 4] (Some [5]) true = None /\ Forall2 (denotes 3) [-1; 0] [2; 0]%nat.
Proof.
  split; [reflexivity|split; [reflexivity|split; [reflexivity|]]].
  constructor; [unfold denotes; lia|constructor; [unfold denotes; lia|constructor]].
Qed.

(** ** C46 *)
Lemma pyidx_valid : forall (s : list Z) dim k, denotes (length s) dim k -> pyidx s dim = nth_error s k.
Proof.
  intros s dim k [Hlt [-> | ->]]; [apply pyidx_nat|]. rewrite pyidx_neg by lia. unfold zlen.
  destruct (Z.ltb_spec (Z.of_nat k - Z.of_nat (length s) + Z.of_nat (length s)) 0); [lia|]. f_equal. lia.
Qed.
Lemma pyset_valid : forall (s : list Z) dim k v, denotes (length s) dim k -> pyset s dim v = Some (set_nth k v s).
Proof.
  intros s dim k v [Hlt H]. unfold pyset. pose proof (zlen_nonneg _ s). unfold zlen in *.
  destruct H as [-> | ->].
  - destruct (Z.ltb_spec (Z.of_nat k) 0); [lia|]. destruct (Z.ltb_spec (Z.of_nat k) 0); [lia|].
    destruct (Z.leb_spec (Z.of_nat (length s)) (Z.of_nat k)); [lia|]. cbn [orb]. now rewrite Nat2Z.id.
  - destruct (Z.ltb_spec (Z.of_nat k - Z.of_nat (length s)) 0); [|lia].
    replace (Z.of_nat k - Z.of_nat (length s) + Z.of_nat (length s)) with (Z.of_nat k) by lia.
    destruct (Z.ltb_spec (Z.of_nat k) 0); [lia|].
    destruct (Z.leb_spec (Z.of_nat (length s)) (Z.of_nat k)); [lia|]. cbn [orb]. now rewrite Nat2Z.id.
Qed.
Lemma wrap_end : forall n k, (k < n)%nat -> wrap_dim (Z.of_nat k - Z.of_nat n) (Z.of_nat n) = wrap_dim (Z.of_nat k) (Z.of_nat n).
Proof.
  intros n k H. transitivity (Some (Z.of_nat k)); [|symmetry]; apply wrap_spec; cbv zeta;
  rewrite Z.max_l by lia; split; try lia.
  - destruct (Z.ltb_spec (Z.of_nat k - Z.of_nat n) 0); lia.
  - destruct (Z.ltb_spec (Z.of_nat k) 0); lia.
Qed.
(** Exact results on one axis. *)
Theorem C46_select_removes_the_axis : forall self dim index out,
  select self dim index = Some out <->
  exists k d, denotes (length self) dim k /\ nth_error self k = Some d /\ - d <= index < d /\
    out = drop_at k self.
Proof.
  intros self dim index out. unfold select.
  assert (R : forall k, (k < length self)%nat -> collect (fun i => if negb (i =? Z.of_nat k) then option_map (fun x => [x]) (pyidx self i)
    else Some []) (zrange 0 (zlen self)) = Some (drop_at k self)).
  { intros k Hk. rewrite (collect_imap _ (fun i x => if negb (i =? 0 + k)%nat then [x] else [])).
    - rewrite (concat_keep (fun i => negb (i =? 0 + k)%nat)). now rewrite keep_drop.
    - intros i x Hx. rewrite pyidx_nat, Hx. simpl.
      destruct (Nat.eqb_spec i k), (Z.eqb_spec (Z.of_nat i) (Z.of_nat k)); try lia; reflexivity. }
  destruct (Z.eqb_spec (zlen self) 0) as [E|E].
  - split; [discriminate|]. intros (k & d & H & _). unfold zlen in E. unfold denotes in H. lia.
  - assert (Hs : self <> []) by (intros ->; now apply E).
    split.
    + destruct (wrap_dim dim (zlen self)) as [w|] eqn:W; [|discriminate]. cbn [obind].
      apply wrap_inv in W; auto. destruct W as (k & D & ->). rewrite pyidx_nat.
      destruct (nth_error self k) as [d|] eqn:Hd; [|discriminate]. cbn [obind].
      destruct (Z.ltb_spec index (- d)); [discriminate|]. destruct (Z.leb_spec d index); [discriminate|]. cbn [orb].
      rewrite R by apply D. intros [= <-]. exists k, d. repeat split; auto; apply D.
    + intros (k & d & D & Hd & Hi & ->). rewrite (wrap_valid _ _ _ D). cbn [obind]. rewrite pyidx_nat, Hd. cbn [obind].
      destruct (Z.ltb_spec index (- d)); [lia|]. destruct (Z.leb_spec d index); [lia|]. cbn [orb]. apply R, D.
Qed.
Theorem C46_index_select_sets_the_axis : forall self dim index k,
  denotes (length self) dim k -> (length index <= 1)%nat ->
  index_select self dim index = Some (set_nth k (prodZ index) self).
Proof.
  intros self dim index k D L. unfold index_select. rewrite (wrap_valid _ _ _ D). cbn [obind].
  assert (zlen index <= 1) by (unfold zlen; lia). destruct (Z.ltb_spec 1 (zlen index)); [lia|].
  assert (Hk : Z.of_nat k < zlen self) by (unfold zlen; destruct D; lia).
  destruct (Z.ltb_spec (Z.of_nat k) (zlen self)); [|lia]. rewrite orb_true_r. cbn [negb]. rewrite numel_prod.
  rewrite (mapM_imap _ _ _ (fun i x => if (i =? k)%nat then prodZ index else x)).
  - f_equal. assert (G : forall (l : list Z) j, (j <= k)%nat ->
      imap (fun i x => if (i =? k)%nat then prodZ index else x) j l = set_nth (k - j) (prodZ index) l).
    { induction l as [|x l IH]; intros j Hj; simpl; [now destruct (k - j)%nat|].
      destruct (Nat.eqb_spec j k) as [->|N].
      - rewrite Nat.sub_diag. cbn [set_nth]. f_equal. clear. assert (G : forall l j, (k < j)%nat -> imap (fun i x => if (i =? k)%nat then prodZ index else x) j l = l).
        { induction l0; intros j Hj; simpl; auto. destruct (Nat.eqb_spec j k); [lia|]. f_equal. apply IHl0. lia. }
        apply G. lia.
      - replace (k - j)%nat with (S (k - S j)) by lia. simpl. f_equal. apply IH. lia. }
    rewrite G by lia. f_equal. lia.
  - intros i x Hx. rewrite pyidx_nat, Hx.
    destruct (Nat.eqb_spec i k), (Z.eqb_spec (Z.of_nat k) (Z.of_nat i)); try lia; reflexivity.
Qed.
Theorem C46_unsqueeze_inserts_one : forall self dim k, denotes (S (length self)) dim k ->
  unsqueeze self dim = Some (insert_at k 1 self).
Proof.
  intros self dim k D. unfold unsqueeze. rewrite unary_spec.
  replace (zlen self + 1) with (zlen (1 :: self)) by (rewrite zlen_cons; lia).
  rewrite (wrap_valid dim (1 :: self) k D). cbn [obind]. unfold py_insert, insert_at, slice_to, slice_from, clampb.
  destruct D as [D _]. destruct (Z.ltb_spec (Z.of_nat k) 0); [lia|]. unfold zlen.
  replace (Z.to_nat (Z.max 0 (Z.min (Z.of_nat k) (Z.of_nat (length self))))) with k by lia. reflexivity.
Qed.
Theorem C46_unsqueeze_rejects : forall self dim, (forall k, ~ denotes (S (length self)) dim k) -> unsqueeze self dim = None.
Proof.
  intros self dim H. unfold unsqueeze. replace (zlen self + 1) with (zlen (1 :: self)) by (rewrite zlen_cons; lia).
  destruct (wrap_dim dim (zlen (1 :: self))) as [w|] eqn:W; auto. apply wrap_inv in W; [|discriminate].
  destruct W as (k & D & _). now apply H in D.
Qed.
Theorem C46_squeeze_removes_size_one : forall self dim k d, denotes (length self) dim k -> nth_error self k = Some d ->
  squeeze self dim = Some (if d =? 1 then drop_at k self else self).
Proof.
  intros self dim k d D Hd. unfold squeeze. rewrite (wrap_valid _ _ _ D). cbn [obind].
  rewrite (collect_imap _ (fun i x => if negb ((i =? 0 + k)%nat && (d =? 1)) then [x] else [])).
  - f_equal. destruct (d =? 1).
    + rewrite <- (keep_drop self 0 k) by apply D. rewrite <- (concat_keep (fun i => negb (i =? 0 + k)%nat)).
      f_equal. apply imap_ext. intros i x _. now rewrite andb_true_r.
    + transitivity (concat (imap (fun i (x : Z) => [x]) 0 self)); [f_equal; apply imap_ext; intros; now rewrite andb_false_r|].
      rewrite (concat_single (fun _ x => x)). apply imap_id.
  - intros i x Hx. rewrite pyidx_nat, Hx. cbn [obind]. simpl.
    destruct (Z.eqb_spec (Z.of_nat i) (Z.of_nat k)), (Nat.eqb_spec i k); try lia; [|reflexivity]. subst i.
    assert (x = d) by congruence. subst x. destruct (d =? 1); reflexivity.
Qed.
Theorem C46_squeeze_all : forall self, squeeze_nodim self = Some (filter (fun x => negb (x =? 1)) self).
Proof.
  intros self. unfold squeeze_nodim. rewrite (collect_imap _ (fun _ x => if negb (x =? 1) then [x] else [])).
  - f_equal. generalize 0%nat. induction self; intros; simpl; auto. destruct (negb (a =? 1)); simpl; now rewrite IHself.
  - intros i x Hx. rewrite pyidx_nat, Hx. cbn [obind]. now destruct (x =? 1).
Qed.
Theorem C46_squeeze_dims_spec : forall self dims ks, dims <> [] -> Forall2 (denotes (length self)) dims ks ->
  squeeze_dims self dims =
  Some (keep_axes (fun i => negb ((nth i self 0 =? 1) && existsb (Nat.eqb i) ks)) self).
Proof.
  intros self dims ks Hd F. unfold squeeze_dims.
  destruct (Z.eqb_spec (zlen dims) 0) as [E|_];
    [destruct dims; [congruence|rewrite zlen_cons in E; pose proof (zlen_nonneg _ dims); lia]|].
  rewrite unary_spec. cbn [obind]. rewrite (wraps_valid _ _ _ F). cbn [obind]. unfold keep_axes.
  rewrite <- concat_keep. apply collect_imap. intros i x Hx. rewrite pyidx_nat, Hx, zmem_nat. cbn [obind].
  rewrite (nth_error_nth _ _ 0 Hx). destruct (x =? 1), (existsb _ _); reflexivity.
Qed.
Theorem C46_topk_sets_the_axis : forall self dim k n d, denotes (length self) dim n -> nth_error self n = Some d ->
  topk self k dim = if d <? k then None else Some (set_nth n k self).
Proof.
  intros self dim k n d D Hd. unfold topk. destruct (Z.eqb_spec (zlen self) 0) as [E|_]; [unfold zlen in E; destruct D; lia|].
  rewrite (pyidx_valid _ _ _ D), Hd. cbn [obind]. destruct (d <? k); auto. rewrite unary_spec. cbn [obind].
  now apply pyset_valid.
Qed.
Theorem C35_transpose_swaps : forall self d0 d1 k0 k1 out,
  denotes (length self) d0 k0 -> denotes (length self) d1 k1 ->
  (transpose self d0 d1 = Some out <->
   length out = length self /\ nth_error out k0 = nth_error self k1 /\ nth_error out k1 = nth_error self k0 /\
   forall i, i <> k0 -> i <> k1 -> nth_error out i = nth_error self i).
Proof.
  intros self d0 d1 k0 k1 out D0 D1. unfold transpose. rewrite (wrap_valid _ _ _ D0), (wrap_valid _ _ _ D1). cbn [obind].
  rewrite unary_spec. destruct (Z.eqb_spec (Z.of_nat k0) (Z.of_nat k1)) as [E|E].
  - assert (k0 = k1) by lia. subst k1. split.
    + intros [= <-]. auto.
    + intros (L & H0 & _ & H). f_equal. apply nth_error_ext'. split; [lia|]. intros i _. destruct (Nat.eq_dec i k0) as [->|N]; [now rewrite H0|symmetry; auto].
  - rewrite mapM_range_nth by apply zlen_nonneg. unfold zlen. rewrite Nat2Z.inj_iff. apply and_iff_compat_l_dep. intros L.
    split.
    + intros H. assert (A : forall i, (i < length self)%nat ->
        nth_error out i = if (i =? k0)%nat then nth_error self k1 else if (i =? k1)%nat then nth_error self k0 else nth_error self i).
      { intros i Hi. rewrite <- H by lia. rewrite !pyidx_nat.
        destruct (Z.eqb_spec (Z.of_nat i) (Z.of_nat k0)), (Nat.eqb_spec i k0); try lia; auto.
        destruct (Z.eqb_spec (Z.of_nat i) (Z.of_nat k1)), (Nat.eqb_spec i k1); try lia; auto. }
      split; [rewrite A by apply D0; now rewrite Nat.eqb_refl|].
      split; [rewrite A by apply D1; rewrite Nat.eqb_refl; destruct (Nat.eqb_spec k1 k0); auto; now subst|].
      intros i N0 N1. destruct (Nat.lt_ge_cases i (length self)) as [Hi|Hi].
      * rewrite A by auto. destruct (Nat.eqb_spec i k0), (Nat.eqb_spec i k1); congruence.
      * transitivity (@None Z); [|symmetry]; apply nth_error_None; lia.
    + intros (H0 & H1 & H) i Hi. rewrite !pyidx_nat.
      destruct (Z.eqb_spec (Z.of_nat i) (Z.of_nat k0)); [now replace i with k0 by lia|].
      destruct (Z.eqb_spec (Z.of_nat i) (Z.of_nat k1)); [now replace i with k1 by lia|]. symmetry. apply H; lia.
Qed.
(** Counting from the end. *)
Definition from_end (self : list Z) (k : nat) : Z := Z.of_nat k - zlen self.
Theorem C46_counting_from_the_end : forall self k, (k < length self)%nat ->
  let d := Z.of_nat k in let d' := from_end self k in
  (forall i, select self d' i = select self d i) /\
  (forall index, index_select self d' index = index_select self d index) /\
  squeeze self d' = squeeze self d /\
  (forall n, topk self n d' = topk self n d) /\
  (forall a b s, slice_Tensor self d' a b s = slice_Tensor self d a b s) /\
  (forall j, transpose self d' j = transpose self d j /\ transpose self j d' = transpose self j d) /\
  (forall keep, argmax self (Some d') keep = argmax self (Some d) keep) /\
  (forall pre post keep, sum_mean_dim self (Some (pre ++ d' :: post)) keep =
                         sum_mean_dim self (Some (pre ++ d :: post)) keep) /\
  (forall pre post, squeeze_dims self (pre ++ d' :: post) = squeeze_dims self (pre ++ d :: post)) /\
  (forall j, flatten self d' j = flatten self d j /\ flatten self j d' = flatten self j d).
Proof.
  intros self k Hk d d'.
  assert (W : wrap_dim d' (zlen self) = wrap_dim d (zlen self)) by (apply wrap_end; auto).
  assert (I : pyidx self d' = pyidx self d).
  { rewrite !(pyidx_valid self _ k); auto; split; auto. }
  assert (M : forall pre post, mapM (fun d => wrap_dim d (zlen self)) (pre ++ d' :: post) =
                               mapM (fun d => wrap_dim d (zlen self)) (pre ++ d :: post)).
  { induction pre as [|p pre IH]; intros post; simpl; [now rewrite W|]. destruct (wrap_dim p (zlen self)); simpl; auto. now rewrite IH. }
  assert (L : forall pre post, zlen (pre ++ d' :: post) = zlen (pre ++ d :: post)) by (intros; now rewrite !zlen_app, !zlen_cons).
  assert (NZ : forall pre post, (zlen (pre ++ d :: post) =? 0) = false).
  { intros. rewrite zlen_app, zlen_cons. pose proof (zlen_nonneg _ pre). pose proof (zlen_nonneg _ post). apply Z.eqb_neq. lia. }
  repeat match goal with |- _ /\ _ => split end; intros.
  - unfold select. now rewrite W.
  - unfold index_select. now rewrite W.
  - unfold squeeze. now rewrite W.
  - unfold topk. rewrite I, unary_spec. destruct (zlen self =? 0); auto. destruct (pyidx self d) as [x|]; auto. cbn [obind].
    destruct (x <? n); auto. rewrite !(pyset_valid self _ k); auto; split; auto.
  - unfold slice_Tensor, slice_up. now rewrite I, W.
  - split; unfold transpose; now rewrite W.
  - unfold argmax, reduce_along_dim. now rewrite W.
  - unfold sum_mean_dim. rewrite L, NZ. now rewrite M.
  - unfold squeeze_dims. rewrite L, NZ, !unary_spec. cbn [obind]. now rewrite M.
  - split; unfold flatten; now rewrite W.
Qed.
Theorem C46_unsqueeze_counts_from_the_end : forall self k, (k <= length self)%nat ->
  unsqueeze self (Z.of_nat k - (zlen self + 1)) = unsqueeze self (Z.of_nat k).
Proof.
  intros self k Hk. rewrite !(C46_unsqueeze_inserts_one self _ k); auto; unfold denotes, zlen; lia.
Qed.
(** Dimensions out of range are rejected. *)
Theorem C46_out_of_range_rejected : forall self d, self <> [] -> (forall k, ~ denotes (length self) d k) ->
  (forall i, select self d i = None) /\ (forall index, index_select self d index = None) /\
  squeeze self d = None /\ (forall n, topk self n d = None) /\
  (forall j, transpose self d j = None /\ transpose self j d = None) /\
  (forall keep, argmax self (Some d) keep = None) /\
  (forall pre post, squeeze_dims self (pre ++ d :: post) = None).
Proof.
  intros self d Hs H.
  assert (W : wrap_dim d (zlen self) = None).
  { destruct (wrap_dim d (zlen self)) eqn:E; auto. apply wrap_inv in E; auto. destruct E as (k & D & _). now apply H in D. }
  assert (I : pyidx self d = None).
  { destruct (pyidx self d) as [v|] eqn:E; auto. exfalso. unfold pyidx in E.
    destruct (Z.ltb_spec (if d <? 0 then d + zlen self else d) 0); [discriminate|].
    set (j := if d <? 0 then d + zlen self else d) in *.
    assert (B : (Z.to_nat j < length self)%nat) by (apply nth_error_Some; congruence).
    apply (H (Z.to_nat j)). subst j. unfold denotes. split; auto. unfold zlen in *.
    destruct (Z.ltb_spec d 0); lia. }
  assert (NZ : (zlen self =? 0) = false).
  { apply Z.eqb_neq. destruct self; [congruence|]. rewrite zlen_cons. pose proof (zlen_nonneg _ self). lia. }
  repeat match goal with |- _ /\ _ => split end; intros.
  - unfold select. now rewrite NZ, W.
  - unfold index_select. now rewrite W.
  - unfold squeeze. now rewrite W.
  - unfold topk. now rewrite NZ, I.
  - split; unfold transpose; rewrite W; auto. now destruct (wrap_dim j (zlen self)).
  - unfold argmax, reduce_along_dim. now rewrite W.
  - unfold squeeze_dims. destruct (Z.eqb_spec (zlen (pre ++ d :: post)) 0) as [E|_].
    { rewrite zlen_app, zlen_cons in E. pose proof (zlen_nonneg _ pre). pose proof (zlen_nonneg _ post). lia. }
    rewrite unary_spec. cbn [obind].
    assert (M : mapM (fun d => wrap_dim d (zlen self)) (pre ++ d :: post) = None).
    { induction pre as [|p pre IH]; simpl; [now rewrite W|]. destruct (wrap_dim p (zlen self)); simpl; auto. now rewrite IH. }
    now rewrite M.
Qed.
Example C46_nonvacuous : select [2; 3; 4] (-2) 1 = Some [2; 4] /\ squeeze [2; 1; 4] (-2) = Some [2; 4] /\
  unsqueeze [2; 3] (-1) = Some [2; 3; 1] /\ index_select [2; 3] (-1) [7] = Some [2; 7] /\
  topk [4; 9] 3 (-1) = Some [4; 3] /\ squeeze_dims [1; 3; 1] [-1; 1] = Some [1; 3] /\ squeeze [2] 1 = None.
Proof. repeat split; reflexivity. Qed.

Print Assumptions C36_dropped_dims.
Print Assumptions C36_kept_dims.
Print Assumptions C36_no_dims_reduces_all.
Print Assumptions C36_argmax_is_a_reduction.
Print Assumptions C36_unpatched_argmax_ignores_keepdim.
Print Assumptions C46_select_removes_the_axis.
Print Assumptions C46_squeeze_dims_spec.
Print Assumptions C35_transpose_swaps.
Print Assumptions C46_counting_from_the_end.
Print Assumptions C46_out_of_range_rejected.
