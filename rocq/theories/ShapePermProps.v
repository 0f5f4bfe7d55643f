(** Property C35: operators that re-order axes. *)
From Coq Require Import ZArith Bool Lia List Permutation.
From Verif Require Import Prelude ShapeCoreModel ShapeCoreSpec ShapeCoreProofs ShapeBroadcastProps
  ShapeViewProps ShapeMatProps ShapeDimProps ShapeCatProps.
Import ListNotations.
Open Scope Z_scope.

Lemma F2_len : forall A B (R : A -> B -> Prop) l r, Forall2 R l r -> length l = length r.
Proof. induction 1; simpl; auto. Qed.
Lemma mapM_comp : forall A B C (g : A -> option B) (f : B -> option C) xs ys,
  mapM g xs = Some ys -> mapM (fun i => do d <- g i; f d) xs = mapM f ys.
Proof.
  induction xs as [|x xs IH]; simpl; intros ys H; [injection H as <-; auto|].
  destruct (g x) as [y|]; [|discriminate]. cbn [obind] in *. destruct (mapM g xs) as [ys'|]; [|discriminate].
  cbn [obind] in H. injection H as <-. simpl. now rewrite (IH ys').
Qed.
Lemma mapM_list : forall A B (f : A -> option B) (l : list A),
  mapM (fun i => do d <- pyidx l i; f d) (zrange 0 (zlen l)) = mapM f l.
Proof.
  intros. apply mapM_comp. rewrite mapM_slice by (pose proof (zlen_nonneg _ l); lia). f_equal. simpl.
  rewrite Z.sub_0_r. unfold zlen. rewrite Nat2Z.id. apply firstn_all.
Qed.
Lemma mapM_total : forall A B (f : A -> option B) g l, (forall x, In x l -> f x = Some (g x)) -> mapM f l = Some (map g l).
Proof. induction l; simpl; intros H; auto. rewrite (H a) by auto. cbn [obind]. rewrite IHl by auto. reflexivity. Qed.
Lemma NoDup_firstn : forall (l : list Z), NoDup l <-> forall i x, nth_error l i = Some x -> ~ In x (firstn i l).
Proof.
  intros l. rewrite NoDup_nth_error. split.
  - intros H i x Hx Hin. apply In_nth_error in Hin. destruct Hin as [j Hj].
    assert (Hji : (j < i)%nat).
    { assert (j < length (firstn i l))%nat by (apply nth_error_Some; congruence). rewrite firstn_length in *. lia. }
    rewrite nth_error_firstn in Hj by auto. assert (i = j) by (apply H; [apply nth_error_Some; congruence|congruence]). lia.
  - intros H i j Hi E. destruct (Nat.lt_trichotomy i j) as [C|[C|C]]; auto; exfalso.
    + destruct (nth_error l i) as [x|] eqn:Ex; [|apply nth_error_None in Ex; lia]. symmetry in E.
      apply (H j x E). apply nth_error_In with i. rewrite nth_error_firstn; auto.
    + destruct (nth_error l i) as [x|] eqn:Ex; [|apply nth_error_None in Ex; lia]. symmetry in E.
      apply (H i x Ex). apply nth_error_In with j. rewrite nth_error_firstn; auto.
Qed.
Lemma zmem_In : forall x l, zmem x l = true <-> In x l.
Proof.
  intros. unfold zmem. rewrite existsb_exists. split.
  - intros (y & H & E). apply Z.eqb_eq in E. now subst.
  - intros H. exists x. split; auto. apply Z.eqb_refl.
Qed.
(** The duplicate test. *)
Lemma dup_spec : forall pd, exists dup,
  mapM (fun i => do x <- pyidx pd i; do ys <- mapM (pyidx pd) (zrange 0 i); Some (zmem x ys)) (zrange 1 (zlen pd)) = Some dup /\
  (existsb (fun b => b) dup = false <-> NoDup pd).
Proof.
  intros pd. eexists. split.
  - apply mapM_total with (g := fun i => zmem (nth (Z.to_nat i) pd 0) (firstn (Z.to_nat i) pd)).
    intros i Hi. apply in_zrange in Hi. unfold zlen in Hi. rewrite pyidx_pos, (nth_error_nth' pd 0) by lia. cbn [obind].
    rewrite mapM_slice by (unfold zlen; lia). cbn [obind]. rewrite Z.sub_0_r. reflexivity.
  - rewrite NoDup_firstn. split.
    + intros H i x Hx Hin. destruct i as [|i]; [destruct Hin|].
      assert (Hl : (S i < length pd)%nat) by (apply nth_error_Some; congruence).
      assert (E : existsb (fun b => b) (map (fun i => zmem (nth (Z.to_nat i) pd 0) (firstn (Z.to_nat i) pd)) (zrange 1 (zlen pd))) = true).
      { apply existsb_exists. exists true. split; auto. apply in_map_iff. exists (Z.of_nat (S i)).
        rewrite Nat2Z.id. split; [|apply in_zrange; unfold zlen; lia]. apply zmem_In.
        now rewrite (nth_error_nth _ _ 0 Hx). }
      congruence.
    + intros H. destruct (existsb _ _) eqn:E; auto. apply existsb_exists in E. destruct E as (b & Hb & ->).
      apply in_map_iff in Hb. destruct Hb as (i & E & Hi). apply in_zrange in Hi. unfold zlen in Hi. apply zmem_In in E.
      exfalso. apply (H (Z.to_nat i) (nth (Z.to_nat i) pd 0)); auto. apply nth_error_nth'. lia.
Qed.
(** [out] lists the sizes of [self] at the axes [ks]. *)
Definition reindexed (self : list Z) (ks : list nat) (out : list Z) : Prop :=
  Forall2 (fun k o => nth_error self k = Some o) ks out.
Lemma reindex_mapM : forall self ks out, mapM (pyidx self) (map Z.of_nat ks) = Some out <-> reindexed self ks out.
Proof.
  intros self ks. unfold reindexed. induction ks as [|k ks IH]; intros out; simpl.
  - split; [intros [= <-]; constructor|intros H; now inversion H].
  - rewrite pyidx_nat. split.
    + destruct (nth_error self k) as [x|] eqn:E; [|discriminate]. cbn [obind].
      destruct (mapM _ _) as [o|] eqn:M; [|discriminate]. intros [= <-]. constructor; auto. now apply IH.
    + intros H. inversion H as [|? x ? o H1 H2]; subst. rewrite H1. cbn [obind]. apply IH in H2. rewrite H2. reflexivity.
Qed.
Theorem C35_permute_spec : forall self dims out, permute self dims = Some out <->
  length dims = length self /\
  exists ks, Forall2 (denotes (length self)) dims ks /\ NoDup ks /\ reindexed self ks out.
Proof.
  intros self dims out. unfold permute. destruct (Z.eqb_spec (zlen self) (zlen dims)) as [L|L]; cbn [negb].
  2: { split; [discriminate|]. intros [H _]. unfold zlen in L. lia. }
  rewrite mapM_list. rewrite <- L. assert (L' : length dims = length self) by (unfold zlen in L; lia).
  assert (NI : forall ks, NoDup (map Z.of_nat ks) <-> NoDup ks).
  { intros ks. split; [apply NoDup_map_inv|]. apply NoDup_map_inj. intros; lia. }
  split.
  - destruct (mapM (fun d => wrap_dim d (zlen self)) dims) as [pd|] eqn:M; [|discriminate]. cbn [obind].
    assert (K : exists ks, Forall2 (denotes (length self)) dims ks /\ pd = map Z.of_nat ks).
    { destruct self as [|x self]; [|apply wraps_inv; [discriminate|auto]].
      destruct dims; [|discriminate]. simpl in M. injection M as <-. exists []. split; constructor. }
    destruct K as (ks & F & ->).
    destruct (mapM (pyidx self) (map Z.of_nat ks)) as [new|] eqn:E; [|discriminate]. cbn [obind].
    assert (Lp : zlen (map Z.of_nat ks) = zlen self).
    { rewrite zlen_map. unfold zlen. rewrite <- (F2_len _ _ _ _ _ F). lia. }
    rewrite <- Lp. destruct (dup_spec (map Z.of_nat ks)) as (dup & -> & D). cbn [obind].
    destruct (existsb (fun b => b) dup); [discriminate|]. intros [= <-]. split; auto. exists ks. split; auto.
    split; [apply NI, D; auto|now apply reindex_mapM].
  - intros (_ & ks & F & N & R). rewrite (wraps_valid _ _ _ F). cbn [obind].
    apply reindex_mapM in R. rewrite R. cbn [obind].
    assert (Lp : zlen (map Z.of_nat ks) = zlen self).
    { rewrite zlen_map. unfold zlen. rewrite <- (F2_len _ _ _ _ _ F). lia. }
    rewrite <- Lp. destruct (dup_spec (map Z.of_nat ks)) as (dup & -> & D). cbn [obind].
    rewrite (proj2 D) by now apply NI. reflexivity.
Qed.
Lemma reindexed_map : forall self ks out, reindexed self ks out -> out = map (fun k => nth k self 0) ks.
Proof. induction 1; simpl; auto. f_equal; auto. symmetry. now apply nth_error_nth. Qed.
Lemma map_nth_seq : forall (self : list Z), map (fun k => nth k self 0) (seq 0 (length self)) = self.
Proof.
  intros self. apply nth_error_ext'. rewrite map_length, seq_length. split; auto. intros i Hi.
  rewrite nth_error_map. rewrite (nth_error_nth' (seq 0 (length self)) 0%nat) by (rewrite seq_length; auto).
  rewrite seq_nth by auto. simpl. symmetry. now apply nth_error_nth'.
Qed.
Lemma reindexed_perm : forall self ks out, reindexed self ks out -> NoDup ks -> length ks = length self -> Permutation out self.
Proof.
  intros self ks out R N L. rewrite (reindexed_map _ _ _ R). 
  apply Permutation_trans with (map (fun k => nth k self 0) (seq 0 (length self))); [apply Permutation_map|rewrite map_nth_seq; auto].
  apply NoDup_Permutation_bis; auto; [rewrite seq_length; lia|]. intros k Hk. apply in_seq.
  apply In_nth_error in Hk. destruct Hk as [i Hi]. assert (k < length self)%nat; [|lia].
  assert (G : forall ks out, reindexed self ks out -> forall i k, nth_error ks i = Some k -> (k < length self)%nat).
  { clear. induction 1; intros [|i] k Hk; simpl in Hk; try discriminate; eauto. injection Hk as <-. apply nth_error_Some. congruence. }
  eauto.
Qed.
Theorem C35_permute_keeps_sizes : forall self dims out, permute self dims = Some out ->
  Permutation out self /\ length out = length self /\ prodZ out = prodZ self.
Proof.
  intros self dims out H. apply C35_permute_spec in H. destruct H as (L & ks & F & N & R).
  assert (P : Permutation out self) by (eapply reindexed_perm; eauto; rewrite <- (F2_len _ _ _ _ _ F); auto).
  split; auto. split; [now apply Permutation_length|now apply prodZ_perm].
Qed.
Theorem C35_repeated_dims_rejected : forall self dims i j k, i <> j ->
  (exists d, nth_error dims i = Some d /\ denotes (length self) d k) ->
  (exists d, nth_error dims j = Some d /\ denotes (length self) d k) -> permute self dims = None.
Proof.
  intros self dims i j k Hij (d & Hd & D) (d' & Hd' & D'). destruct (permute self dims) as [out|] eqn:E; auto. exfalso.
  apply C35_permute_spec in E. destruct E as (_ & ks & F & N & _).
  assert (G : forall i d, nth_error dims i = Some d -> exists k, nth_error ks i = Some k /\ denotes (length self) d k).
  { clear - F. induction F; intros [|i] d Hd; simpl in Hd; try discriminate.
    - injection Hd as <-. exists y. auto.
    - apply IHF in Hd. exact Hd. }
  destruct (G _ _ Hd) as (k1 & K1 & E1), (G _ _ Hd') as (k2 & K2 & E2).
  assert (k1 = k) by (eapply denotes_inj; eauto). assert (k2 = k) by (eapply denotes_inj; eauto). subst.
  apply Hij. rewrite NoDup_nth_error in N. apply N; [apply nth_error_Some; congruence|congruence].
Qed.
Theorem C35_transpose_keeps_sizes : forall self d0 d1 out, self <> [] -> transpose self d0 d1 = Some out ->
  Permutation out self /\ prodZ out = prodZ self.
Proof.
  intros self d0 d1 out Hs H.
  assert (D : exists k0 k1, denotes (length self) d0 k0 /\ denotes (length self) d1 k1).
  { unfold transpose in H. destruct (wrap_dim d0 (zlen self)) as [w0|] eqn:W0; [|discriminate]. cbn [obind] in H.
    destruct (wrap_dim d1 (zlen self)) as [w1|] eqn:W1; [|discriminate].
    apply wrap_inv in W0, W1; auto. destruct W0 as (k0 & ? & _), W1 as (k1 & ? & _). eauto. }
  destruct D as (k0 & k1 & D0 & D1). apply (C35_transpose_swaps _ _ _ k0 k1) in H; auto. destruct H as (L & H0 & H1 & H).
  set (sw := fun i => if (i =? k0)%nat then k1 else if (i =? k1)%nat then k0 else i).
  assert (P : Permutation out self); [|split; auto; now apply prodZ_perm].
  apply reindexed_perm with (ks := map sw (seq 0 (length self))).
  - assert (G : forall n m, reindexed self (map sw (seq n m)) (firstn m (skipn n out)) \/ (length self < n + m)%nat).
    { intros n m. revert n. induction m as [|m IH]; intros n; [left; constructor|].
      destruct (Nat.lt_ge_cases (length self) (n + S m)) as [C|C]; [now right|left].
      destruct (IH (S n)) as [R|C2]; [|lia]. simpl.
      destruct (nth_error out n) as [x|] eqn:E; [|apply nth_error_None in E; lia].
      assert (SK : skipn n out = x :: skipn (S n) out).
      { clear - E. revert out E. induction n; intros [|y out] E; simpl in *; try discriminate; [congruence|]. now apply IHn. }
      rewrite SK. constructor; auto. unfold sw. destruct (Nat.eqb_spec n k0) as [->|]; [congruence|].
      destruct (Nat.eqb_spec n k1) as [->|]; [congruence|]. rewrite <- H; auto. }
    destruct (G 0%nat (length self)) as [R|C]; [|lia]. simpl in R. rewrite <- L in R at 2. rewrite firstn_all in R. exact R.
  - apply NoDup_map_inj; [|apply seq_NoDup]. intros x y _ _. unfold sw.
    destruct (Nat.eqb_spec x k0), (Nat.eqb_spec y k0), (Nat.eqb_spec x k1), (Nat.eqb_spec y k1); congruence.
  - now rewrite map_length, seq_length.
Qed.
Theorem C35_numpy_T_reverses : forall self, numpy_T self = Some (rev self).
Proof.
  intros self. unfold numpy_T. f_equal.
  assert (G : forall l acc, fold_left (fun (r : list Z) i => i :: r) l acc = rev l ++ acc).
  { induction l as [|x l IH]; intros acc; [reflexivity|]. cbn [fold_left rev]. rewrite IH, <- app_assoc. reflexivity. }
  now rewrite G, app_nil_r.
Qed.

(** ** movedim *)
Definition assign (l : list Z) (ps : list (nat * Z)) : list Z :=
  fold_left (fun l p => set_nth (fst p) (snd p) l) ps l.
Lemma assign_length : forall ps l, length (assign l ps) = length l.
Proof. induction ps as [|p ps IH]; intros l; simpl; auto. rewrite IH. apply set_nth_length. Qed.
Lemma assign_other : forall ps l j, ~ In j (map fst ps) -> nth_error (assign l ps) j = nth_error l j.
Proof.
  induction ps as [|p ps IH]; intros l j H; simpl in *; auto. rewrite IH by tauto. apply set_nth_other. intros ->. tauto.
Qed.
Lemma assign_spec : forall ps l k v, NoDup (map fst ps) -> In (k, v) ps -> (k < length l)%nat ->
  nth_error (assign l ps) k = Some v.
Proof.
  induction ps as [|p ps IH]; intros l k v N H Hk; [destruct H|]. simpl in *. inversion N as [|? ? N1 N2]; subst.
  destruct H as [->|H].
  - rewrite assign_other by auto. now apply set_nth_same.
  - apply IH; auto. now rewrite set_nth_length.
Qed.
Lemma assign_const : forall ks l j v, (j < length l)%nat ->
  nth_error (assign l (map (fun k => (k, v)) ks)) j = if existsb (Nat.eqb j) ks then Some v else nth_error l j.
Proof.
  induction ks as [|k ks IH]; intros l j v Hj; simpl; auto. rewrite IH by now rewrite set_nth_length.
  destruct (existsb (Nat.eqb j) ks); [now rewrite orb_true_r|]. rewrite orb_false_r.
  destruct (Nat.eqb_spec j k) as [->|N]; [now apply set_nth_same|now apply set_nth_other].
Qed.
Lemma foldM_comp : forall A B T (g : A -> option B) (h : T -> B -> option T) (F : T -> A -> option T) xs ys st,
  mapM g xs = Some ys -> (forall st x, F st x = do p <- g x; h st p) -> foldM F xs st = foldM h ys st.
Proof.
  induction xs as [|x xs IH]; simpl; intros ys st H HF; [injection H as <-; auto|].
  rewrite HF. destruct (g x) as [y|]; [|discriminate]. cbn [obind] in *. destruct (mapM g xs) as [ys'|]; [|discriminate].
  cbn [obind] in H. injection H as <-. simpl. destruct (h st y); cbn [obind]; auto.
Qed.
Lemma mapM_pairs : forall a b : list Z, length a = length b ->
  mapM (fun i => do s <- pyidx a i; do d <- pyidx b i; Some (s, d)) (zrange 0 (zlen a)) = Some (combine a b).
Proof.
  intros a b L. apply mapM_range_nth; [apply zlen_nonneg|]. unfold zlen. rewrite combine_length. split; [lia|].
  intros k Hk. rewrite !pyidx_nat. rewrite (nth_error_nth' a 0), (nth_error_nth' b 0) by lia. cbn [obind].
  rewrite (nth_error_nth' (combine a b) (0, 0)) by (rewrite combine_length; lia). now rewrite combine_nth.
Qed.
Lemma pyset_nat : forall (l : list Z) k v, (k < length l)%nat -> pyset l (Z.of_nat k) v = Some (set_nth k v l).
Proof. intros. apply pyset_valid. split; auto. Qed.
(** Axes not in [ks]. *)
Definition others (n : nat) (ks : list nat) : list nat := filter (fun j => negb (existsb (Nat.eqb j) ks)) (seq 0 n).
Lemma others_perm : forall n ks, NoDup ks -> (forall k, In k ks -> k < n)%nat -> Permutation (seq 0 n) (ks ++ others n ks).
Proof.
  intros n ks N H. apply NoDup_Permutation; [apply seq_NoDup| |].
  - assert (D : forall x, In x ks -> ~ In x (others n ks)).
    { intros x Hx Hin. apply filter_In in Hin. destruct Hin as [_ E]. apply (proj2 (existsb_In x ks)) in Hx. rewrite Hx in E. discriminate. }
    assert (NO : NoDup (others n ks)) by (apply NoDup_filter, seq_NoDup).
    clear H. induction ks as [|k ks IH]; simpl; auto. apply NoDup_app_intro || idtac.
    clear IH. assert (G : forall l r : list nat, NoDup l -> NoDup r -> (forall x, In x l -> ~ In x r) -> NoDup (l ++ r)).
    { clear. induction l as [|x l IH]; intros r Hl Hr D; simpl; auto. inversion Hl; subst. constructor.
      - rewrite in_app_iff. intros [|]; [auto|]. eapply D; simpl; eauto.
      - apply IH; auto. intros y Hy. apply D. simpl; auto. }
    apply (G (k :: ks)); auto.
  - intros x. rewrite in_app_iff, in_seq. unfold others. rewrite filter_In, in_seq. split.
    + intros Hx. destruct (existsb (Nat.eqb x) ks) eqn:E; [left; now apply existsb_In|right; split; [lia|reflexivity]].
    + intros [Hx|[Hx _]]; [specialize (H x Hx); lia|lia].
Qed.
Lemma marked_filter : forall n ks, filter (fun x => negb (x =? -1)) (assign (zrange 0 (Z.of_nat n)) (map (fun k => (k, -1)) ks)) =
  map Z.of_nat (others n ks).
Proof.
  intros n ks. assert (E : assign (zrange 0 (Z.of_nat n)) (map (fun k => (k, -1)) ks) =
    map (fun j => if existsb (Nat.eqb j) ks then -1 else Z.of_nat j) (seq 0 n)).
  { apply nth_error_ext'. rewrite assign_length, map_length, seq_length, zrange_length. split; [lia|]. intros j Hj.
    rewrite assign_const by (rewrite zrange_length; lia). rewrite nth_error_map, nth_zrange.
    rewrite (nth_error_nth' (seq 0 n) 0%nat), seq_nth by (rewrite ?seq_length; lia). simpl.
    destruct (existsb (Nat.eqb j) ks); auto. destruct (Nat.ltb_spec j (Z.to_nat (Z.of_nat n - 0))); [f_equal; lia|lia]. }
  rewrite E. clear E. unfold others. induction (seq 0 n) as [|j l IH]; auto. simpl. destruct (existsb (Nat.eqb j) ks); simpl; auto.
  destruct (Z.eqb_spec (Z.of_nat j) (-1)); [lia|]. simpl. rewrite IH. reflexivity.
Qed.
Lemma keep_others : forall p (self : list Z) i, keep_axes_from i p self =
  map (fun k => nth (k - i) self 0) (filter p (seq i (length self))).
Proof.
  intros p self. induction self as [|x self IH]; intros i; simpl; auto. rewrite IH.
  assert (E : map (fun k => nth (k - S i) self 0) (filter p (seq (S i) (length self))) =
              map (fun k => nth (k - i) (x :: self) 0) (filter p (seq (S i) (length self)))).
  { apply map_ext_in. intros k Hk. apply filter_In in Hk. destruct Hk as [Hk _]. apply in_seq in Hk.
    destruct (k - i)%nat as [|m] eqn:Em; [lia|]. simpl. f_equal. lia. }
  destruct (p i); simpl; rewrite E; auto. now rewrite Nat.sub_diag.
Qed.
Lemma combine_fst : forall A B (a : list A) (b : list B), length a = length b -> map fst (combine a b) = a.
Proof. induction a; destruct b; simpl; intros; try lia; auto. f_equal. apply IHa. lia. Qed.
Lemma combine_snd : forall A B (a : list A) (b : list B), length a = length b -> map snd (combine a b) = b.
Proof. induction a; destruct b; simpl; intros; try lia; auto. f_equal. apply IHa. lia. Qed.
Lemma fold1_spec : forall n ns nd, length ns = length nd -> (forall k, In k ns -> k < n)%nat -> (forall k, In k nd -> k < n)%nat ->
  forall order sd dd : list Z, length order = n -> length sd = n -> length dd = n ->
  foldM (fun (st : list Z * list Z * list Z) (p : Z * Z) => let '(order, sd, dd) := st in
      do order <- pyset order (snd p) (fst p); do sd <- pyset sd (fst p) (-1); do dd <- pyset dd (snd p) (-1); Some (order, sd, dd))
    (combine (map Z.of_nat ns) (map Z.of_nat nd)) (order, sd, dd) =
  Some (assign order (combine nd (map Z.of_nat ns)), assign sd (map (fun k => (k, -1)) ns), assign dd (map (fun k => (k, -1)) nd)).
Proof.
  intros n. induction ns as [|s ns IH]; intros [|d nd] L Hs Hd order sd dd Lo Ls Ld; simpl in L; try lia; auto.
  simpl. simpl in Hs, Hd. rewrite !pyset_nat by (rewrite ?Lo, ?Ls, ?Ld; auto). cbn [obind].
  apply IH; auto; rewrite set_nth_length; auto.
Qed.
Lemma fold2_spec : forall n sd dd, length sd = length dd -> (forall k, In k dd -> k < n)%nat -> forall order : list Z, length order = n ->
  foldM (fun order (p : Z * Z) => pyset order (snd p) (fst p)) (combine (map Z.of_nat sd) (map Z.of_nat dd)) order =
  Some (assign order (combine dd (map Z.of_nat sd))).
Proof.
  intros n. induction sd as [|s sd IH]; intros [|d dd] L Hd order Lo; simpl in L; try lia; auto.
  simpl. simpl in Hd. rewrite pyset_nat by (rewrite Lo; auto). cbn [obind]. apply IH; auto. now rewrite set_nth_length.
Qed.
Lemma denotes_lt : forall n dims ks, Forall2 (denotes n) dims ks -> forall k, In k ks -> (k < n)%nat.
Proof. induction 1; intros j Hj; [destruct Hj|]. destruct Hj as [<-|Hj]; [apply H|auto]. Qed.
(** The result of movedim: each source axis goes to its destination, the other axes keep their order. *)
Definition moved (self : list Z) (ns nd : list nat) (out : list Z) : Prop :=
  length out = length self /\
  (forall i a b, nth_error ns i = Some a -> nth_error nd i = Some b -> nth_error out b = nth_error self a) /\
  keep_axes (fun j => negb (existsb (Nat.eqb j) nd)) out = keep_axes (fun j => negb (existsb (Nat.eqb j) ns)) self.
Theorem C35_movedim_spec : forall self src dst ns nd,
  Forall2 (denotes (length self)) src ns -> Forall2 (denotes (length self)) dst nd -> length src = length dst ->
  NoDup ns -> NoDup nd ->
  exists out, movedim self src dst = Some out /\ moved self ns nd out /\ Permutation out self.
Proof.
  intros self src dst ns nd Fs Fd L Ns Nd. set (n := length self) in *.
  assert (Ls : length src = length ns) by (eapply F2_len; eauto).
  assert (Ld : length dst = length nd) by (eapply F2_len; eauto).
  assert (Bs := denotes_lt _ _ _ Fs). assert (Bd := denotes_lt _ _ _ Fd).
  unfold movedim. destruct (Z.leb_spec (zlen self) 1) as [Sm|Bg].
  { exists self. split; auto. split; [|auto]. split; auto.
    assert (E : ns = nd).
    { unfold zlen in Sm. fold n in Sm.
      assert (Z0 : forall l, NoDup l -> (forall k, In k l -> (k < n)%nat) -> l = [] \/ l = [0%nat]).
      { intros [|a [|b l]] N B; auto; [right; specialize (B a (or_introl eq_refl)); f_equal; lia|].
        exfalso. assert (a = 0)%nat by (specialize (B a (or_introl eq_refl)); lia).
        assert (b = 0)%nat by (specialize (B b (or_intror (or_introl eq_refl))); lia). subst. inversion N as [|? ? X]; subst. apply X. simpl; auto. }
      destruct (Z0 ns Ns Bs) as [-> | ->], (Z0 nd Nd Bd) as [-> | ->]; auto; simpl in *; lia. }
    subst nd. split; auto. intros i a b Ha Hb. congruence. }
  assert (Es : mapM (fun i => do d <- pyidx src i; wrap_dim d (zlen self)) (zrange 0 (zlen src)) = Some (map Z.of_nat ns)).
  { rewrite (mapM_list Z Z (fun d => wrap_dim d (zlen self)) src). now apply wraps_valid. }
  assert (Ed : mapM (fun i => do d <- pyidx dst i; wrap_dim d (zlen self)) (zrange 0 (zlen src)) = Some (map Z.of_nat nd)).
  { replace (zlen src) with (zlen dst) by (unfold zlen; lia). rewrite (mapM_list Z Z (fun d => wrap_dim d (zlen self)) dst). now apply wraps_valid. }
  rewrite Es, Ed. cbn [obind].
  rewrite (foldM_comp) with (ys := combine (map Z.of_nat ns) (map Z.of_nat nd))
    (g := fun i => do s <- pyidx (map Z.of_nat ns) i; do d <- pyidx (map Z.of_nat nd) i; Some (s, d))
    (h := fun (st : list Z * list Z * list Z) (p : Z * Z) => let '(order, sd, dd) := st in
      do order <- pyset order (snd p) (fst p); do sd <- pyset sd (fst p) (-1); do dd <- pyset dd (snd p) (-1); Some (order, sd, dd)).
  2: { replace (zlen src) with (zlen (map Z.of_nat ns)) by (rewrite zlen_map; unfold zlen; lia).
       apply mapM_pairs. rewrite !map_length. lia. }
  2: { intros [[o s] d] i. destruct (pyidx (map Z.of_nat ns) i); cbn [obind]; auto. destruct (pyidx (map Z.of_nat nd) i); reflexivity. }
  assert (Zn : zlen self = Z.of_nat n) by reflexivity. rewrite Zn.
  rewrite (fold1_spec n ns nd); auto; try lia; try (rewrite ?map_length, zrange_length; lia).
  cbn [obind]. rewrite !marked_filter.
  set (order0 := assign _ (combine nd _)).
  assert (Lo : length order0 = n) by (unfold order0; rewrite assign_length, map_length, zrange_length; lia).
  assert (Ps := others_perm n ns Ns Bs). assert (Pd := others_perm n nd Nd Bd).
  assert (LPs := Permutation_length Ps). assert (LPd := Permutation_length Pd). rewrite seq_length, app_length in LPs, LPd.
  rewrite (foldM_comp) with (ys := combine (map Z.of_nat (others n ns)) (map Z.of_nat (others n nd)))
    (g := fun i => do s <- pyidx (map Z.of_nat (others n ns)) i; do d <- pyidx (map Z.of_nat (others n nd)) i; Some (s, d))
    (h := fun order (p : Z * Z) => pyset order (snd p) (fst p)).
  2: { replace (Z.of_nat n - zlen src) with (zlen (map Z.of_nat (others n ns))) by (rewrite zlen_map; unfold zlen; lia).
       apply mapM_pairs. rewrite !map_length. lia. }
  2: { intros st i. destruct (pyidx (map Z.of_nat (others n ns)) i); cbn [obind]; auto. destruct (pyidx (map Z.of_nat (others n nd)) i); reflexivity. }
  rewrite (fold2_spec n); auto; try lia.
  2: { intros k Hk. apply filter_In in Hk. destruct Hk as [Hk _]. apply in_seq in Hk. lia. }
  cbn [obind]. set (P := combine nd ns ++ combine (others n nd) (others n ns)).
  set (order := assign order0 _).
  assert (Fst : map fst P = nd ++ others n nd) by (unfold P; rewrite map_app, !combine_fst; auto; lia).
  assert (Snd : map snd P = ns ++ others n ns) by (unfold P; rewrite map_app, !combine_snd; auto; lia).
  assert (NF : NoDup (map fst P)) by (rewrite Fst; eapply Permutation_NoDup; [exact Pd|apply seq_NoDup]).
  assert (NS : NoDup (map snd P)) by (rewrite Snd; eapply Permutation_NoDup; [exact Ps|apply seq_NoDup]).
  assert (BF : forall j v, In (j, v) P -> (j < n)%nat /\ (v < n)%nat).
  { intros j v H. split.
    - assert (In j (map fst P)) by (apply (in_map fst) in H; auto). rewrite Fst in H0.
      apply (Permutation_in (l' := seq 0 n)) in H0; [apply in_seq in H0; lia|now apply Permutation_sym].
    - assert (In v (map snd P)) by (apply (in_map snd) in H; auto). rewrite Snd in H0.
      apply (Permutation_in (l' := seq 0 n)) in H0; [apply in_seq in H0; lia|now apply Permutation_sym]. }
  assert (Oeq : order = assign (map (fun _ => -1) (zrange 0 (Z.of_nat n))) (map (fun p => (fst p, Z.of_nat (snd p))) P)).
  { unfold order, order0, assign. rewrite <- fold_left_app. f_equal. unfold P. rewrite map_app.
    assert (G : forall (a b : list nat), combine a (map Z.of_nat b) = map (fun p => (fst p, Z.of_nat (snd p))) (combine a b)).
    { induction a; destruct b; simpl; auto. f_equal. auto. }
    now rewrite !G. }
  assert (OV : forall j v, In (j, v) P -> nth_error order j = Some (Z.of_nat v)).
  { intros j v H. rewrite Oeq. apply assign_spec.
    - rewrite map_map. simpl. exact NF.
    - apply in_map_iff. exists (j, v). auto.
    - rewrite map_length, zrange_length. destruct (BF j v H). lia. }
  assert (Lorder : length order = n) by (unfold order; now rewrite assign_length).
  assert (Cov : forall j, (j < n)%nat -> exists v, In (j, v) P).
  { intros j Hj. assert (In j (map fst P)).
    { rewrite Fst. apply (Permutation_in (l := seq 0 n)); auto. apply in_seq. lia. }
    apply in_map_iff in H. destruct H as ((j' & v) & <- & H). eauto. }
  set (ks := map Z.to_nat order).
  assert (KV : forall j v, In (j, v) P -> nth_error ks j = Some v).
  { intros j v H. unfold ks. rewrite nth_error_map, (OV j v H). simpl. now rewrite Nat2Z.id. }
  assert (Lks : length ks = n) by (unfold ks; rewrite map_length; auto).
  assert (NK : NoDup ks).
  { apply NoDup_nth_error. intros i j Hi E. rewrite Lks in Hi. destruct (Cov i Hi) as [v Hv]. rewrite (KV i v Hv) in E.
    assert (Hj : (j < n)%nat) by (rewrite <- Lks; apply nth_error_Some; congruence).
    destruct (Cov j Hj) as [w Hw]. rewrite (KV j w Hw) in E. injection E as <-.
    clear - NS Hv Hw. induction P as [|p P IH]; [destruct Hv|]. simpl in NS. inversion NS as [|? ? N1 N2]; subst.
    destruct Hv as [->|Hv], Hw as [E|Hw].
    - congruence.
    - exfalso. apply N1. simpl. apply (in_map snd) in Hw. exact Hw.
    - subst p. exfalso. apply N1. simpl. apply (in_map snd) in Hv. exact Hv.
    - auto. }
  set (out := map (fun k => nth k self 0) ks).
  assert (OutV : forall j v, In (j, v) P -> nth_error out j = nth_error self v).
  { intros j v H. unfold out. rewrite nth_error_map, (KV j v H). simpl. symmetry. apply nth_error_nth'. destruct (BF j v H). auto. }
  assert (R : reindexed self ks out).
  { unfold reindexed, out. assert (B : forall k, In k ks -> (k < n)%nat).
    { intros k Hk. apply In_nth_error in Hk. destruct Hk as [j Hj].
      assert (Hjn : (j < n)%nat) by (rewrite <- Lks; apply nth_error_Some; congruence).
      destruct (Cov j Hjn) as [v Hv]. rewrite (KV j v Hv) in Hj. injection Hj as <-. apply (BF j v Hv). }
    clear - B. induction ks; constructor; simpl in B; auto. apply nth_error_nth'. auto. }
  assert (PM : permute self order = Some out).
  { apply C35_permute_spec. split; [lia|]. exists ks. split; [|auto].
    assert (B : forall d, In d order -> exists v, (v < n)%nat /\ d = Z.of_nat v).
    { intros d Hd. apply In_nth_error in Hd. destruct Hd as [j Hj].
      assert (Hjn : (j < n)%nat) by (rewrite <- Lorder; apply nth_error_Some; congruence).
      destruct (Cov j Hjn) as [v Hv]. rewrite (OV j v Hv) in Hj. injection Hj as <-. exists v. split; auto. apply (BF j v Hv). }
    unfold ks. fold n. clear - B. induction order as [|d o IH]; simpl; constructor.
    - destruct (B d (or_introl eq_refl)) as (v & Hv & ->). rewrite Nat2Z.id. split; auto.
    - apply IH. intros; apply B; simpl; auto. }
  exists out. split; auto.
  assert (Lout : length out = n) by (unfold out; rewrite map_length; auto).
  split; [split; [auto|split]|].
  - intros i a b Ha Hb. apply OutV. unfold P. apply in_or_app. left. clear - Ha Hb. revert i nd Ha Hb.
    induction ns as [|s ns IH]; intros [|i] [|d nd] Ha Hb; simpl in *; try discriminate.
    + left. congruence.
    + right. eauto.
  - unfold keep_axes. rewrite !keep_others, Lout. fold n. fold (others n nd) (others n ns).
    assert (G : forall a b : list nat, length a = length b -> (forall p, In p (combine a b) -> In p P) ->
      map (fun k => nth (k - 0) out 0) a = map (fun k => nth (k - 0) self 0) b).
    { induction a as [|x a IH]; intros [|y b] Lab H; simpl in Lab; try lia; auto. simpl. f_equal.
      - rewrite !Nat.sub_0_r. assert (E := OutV x y (H (x, y) (or_introl eq_refl))).
        destruct (BF x y (H (x, y) (or_introl eq_refl))) as [B1 B2].
        rewrite (nth_error_nth' out 0), (nth_error_nth' self 0) in E by (rewrite ?Lout; auto). congruence.
      - apply IH; [lia|]. intros p Hp. apply H. simpl. auto. }
    apply G; [lia|]. intros p Hp. unfold P. apply in_or_app. right. exact Hp.
  - eapply reindexed_perm; eauto.
Qed.
Example C35_nonvacuous : permute [2; 3; 4] [-1; 0; 1] = Some [4; 2; 3] /\ permute [2; 3] [0; 0] = None /\
  transpose [2; 3; 4] 0 (-1) = Some [4; 3; 2] /\ numpy_T [2; 3; 4] = Some [4; 3; 2] /\
  movedim [2; 3; 4; 5] [0; -1] [-1; 0] = Some [5; 3; 4; 2] /\ Forall2 (denotes 4) [0; -1] [0; 3]%nat.
Proof.
  split; [reflexivity|split; [reflexivity|split; [reflexivity|split; [reflexivity|split; [reflexivity|]]]]].
  constructor; [unfold denotes; lia|constructor; [unfold denotes; lia|constructor]].
Qed.

Print Assumptions C35_permute_spec.
Print Assumptions C35_permute_keeps_sizes.
Print Assumptions C35_repeated_dims_rejected.
Print Assumptions C35_transpose_keeps_sizes.
Print Assumptions C35_numpy_T_reverses.
Print Assumptions C35_movedim_spec.
