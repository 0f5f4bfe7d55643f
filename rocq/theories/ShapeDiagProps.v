(** Property C42: diagonal, diag_embed and diag. *)
From Coq Require Import ZArith Bool Lia List.
From Verif Require Import Prelude ShapeCoreModel ShapeCoreSpec ShapeCoreProofs ShapeBroadcastProps ShapeViewProps
  ShapeDimProps ShapeMiscModel ShapeMiscSpec ShapeTriProps.
Import ListNotations.
Open Scope Z_scope.

Lemma diag_row : forall col offset i, zlen (filter (on_diag offset) (map (fun j => (i, j)) (zrange 0 col))) =
  if (0 <=? i + offset) && (i + offset <? col) then 1 else 0.
Proof.
  intros col offset i. destruct (Z.le_gt_cases 0 col) as [H|H].
  - rewrite <- (Z2Nat.id col H). induction (Z.to_nat col) as [|n IH].
    + change (zrange 0 (Z.of_nat 0)) with (@nil Z). cbn [map filter]. rewrite zlen_nil.
      destruct (Z.leb_spec 0 (i + offset)), (Z.ltb_spec (i + offset) (Z.of_nat 0)); cbn [andb]; lia.
    + replace (Z.of_nat (S n)) with (Z.of_nat n + 1) by lia. rewrite zrange_snoc, map_app, filter_app, zlen_app, IH by lia.
      cbn [map filter]. unfold on_diag at 1. cbn [fst snd].
      destruct (Z.eqb_spec (Z.of_nat n - i) offset), (Z.leb_spec 0 (i + offset)), (Z.ltb_spec (i + offset) (Z.of_nat n)),
        (Z.ltb_spec (i + offset) (Z.of_nat n + 1)); cbn [andb]; rewrite ?zlen_cons, ?zlen_nil; lia.
  - rewrite zrange_nil by lia. cbn [map filter]. rewrite zlen_nil.
    destruct (Z.leb_spec 0 (i + offset)), (Z.ltb_spec (i + offset) col); cbn [andb]; lia.
Qed.
Lemma diag_count : forall row col offset, 0 <= row -> 0 <= col ->
  zlen (filter (on_diag offset) (cells row col)) =
  if offset <? 0 then Z.max (Z.min (row + offset) col) 0 else Z.max (Z.min row (col - offset)) 0.
Proof.
  intros row col offset Hr Hc.
  transitivity (Z.max 0 (Z.min row (col - offset) - Z.max 0 (- offset))); [|destruct (Z.ltb_spec offset 0); lia].
  rewrite <- (Z2Nat.id row) by lia. clear Hr. induction (Z.to_nat row) as [|n IH].
  - change (cells (Z.of_nat 0) col) with (@nil (Z * Z)). cbn [filter]. rewrite zlen_nil. lia.
  - replace (Z.of_nat (S n)) with (Z.of_nat n + 1) by lia. rewrite cells_snoc, filter_app, zlen_app, diag_row, IH by lia.
    destruct (Z.leb_spec 0 (Z.of_nat n + offset)), (Z.ltb_spec (Z.of_nat n + offset) col); cbn [andb]; lia.
Qed.
Definition others2 (k1 k2 : nat) (i : nat) : bool := negb ((i =? k1)%nat || (i =? k2)%nat).
(** diagonal: the other axes in order, then the number of positions on that diagonal. *)
Theorem C42_diagonal_spec : forall self offset dim1 dim2 out, Forall (fun x => 0 <= x) self ->
  (diagonal self offset dim1 dim2 = Some out <->
   exists k1 k2 s1 s2, denotes (length self) dim1 k1 /\ denotes (length self) dim2 k2 /\ k1 <> k2 /\
     nth_error self k1 = Some s1 /\ nth_error self k2 = Some s2 /\
     out = keep_axes (others2 k1 k2) self ++ [zlen (filter (on_diag offset) (cells s1 s2))]).
Proof.
  intros self offset dim1 dim2 out Hs. unfold diagonal.
  assert (C : forall k1 k2, collect (fun i => do x <- pyidx self i;
      if (i =? Z.of_nat k1) || (i =? Z.of_nat k2) then Some [] else Some [x]) (zrange 0 (zlen self)) =
      Some (keep_axes (others2 k1 k2) self)).
  { intros k1 k2. rewrite (collect_imap _ (fun i x => if others2 k1 k2 i then [x] else [])).
    - f_equal. apply concat_keep.
    - intros i x E. rewrite pyidx_nat, E. cbn [obind]. unfold others2.
      destruct (Nat.eqb_spec i k1), (Nat.eqb_spec i k2), (Z.eqb_spec (Z.of_nat i) (Z.of_nat k1)),
        (Z.eqb_spec (Z.of_nat i) (Z.of_nat k2)); try lia; reflexivity. }
  assert (P : forall k x, nth_error self k = Some x -> 0 <= x).
  { intros k x E. apply nth_error_In in E. rewrite Forall_forall in Hs. auto. }
  split.
  - intros H. destruct (Z.leb_spec 2 (zlen self)) as [L|]; [|discriminate]. cbn [guard obind] in H.
    assert (N : self <> []) by (intros ->; unfold zlen in L; simpl in L; lia).
    destruct (wrap_dim dim1 (zlen self)) as [w1|] eqn:W1; [|discriminate]. cbn [obind] in H.
    destruct (wrap_dim dim2 (zlen self)) as [w2|] eqn:W2; [|discriminate]. cbn [obind] in H.
    apply wrap_inv in W1, W2; auto. destruct W1 as (k1 & D1 & ->), W2 as (k2 & D2 & ->).
    destruct (Z.eqb_spec (Z.of_nat k1) (Z.of_nat k2)) as [|Ne]; [discriminate|]. cbn [negb guard obind] in H.
    rewrite C in H. cbn [obind] in H. rewrite !pyidx_nat in H.
    destruct (nth_error self k1) as [s1|] eqn:E1; [|discriminate]. cbn [obind] in H.
    destruct (nth_error self k2) as [s2|] eqn:E2; [|discriminate]. cbn [obind] in H. injection H as <-.
    exists k1, k2, s1, s2. split; [auto|split; [auto|split; [lia|split; [auto|split; [auto|]]]]].
    rewrite diag_count by eauto. reflexivity.
  - intros (k1 & k2 & s1 & s2 & D1 & D2 & Ne & E1 & E2 & ->).
    rewrite (proj2 (guard_true _)) by (destruct D1, D2; unfold zlen; lia). cbn [obind].
    rewrite (wrap_valid _ _ _ D1), (wrap_valid _ _ _ D2). cbn [obind].
    rewrite (proj2 (guard_true _)) by lia. cbn [obind]. rewrite C. cbn [obind]. rewrite !pyidx_nat, E1, E2. cbn [obind].
    rewrite diag_count by eauto. reflexivity.
Qed.
Theorem C42_equal_dims_rejected : forall self offset dim1 dim2 k,
  denotes (length self) dim1 k -> denotes (length self) dim2 k -> diagonal self offset dim1 dim2 = None.
Proof.
  intros self offset dim1 dim2 k D1 D2. unfold diagonal. destruct (2 <=? zlen self); auto. cbn [guard obind].
  rewrite (wrap_valid _ _ _ D1), (wrap_valid _ _ _ D2). cbn [obind]. now rewrite Z.eqb_refl.
Qed.

(** diag_embed. *)
Definition embed_step (self : list Z) (v : Z) (k1 k2 : nat) (st : list Z * Z) (i : Z) : option (list Z * Z) :=
  let '(out, k) := st in
  if (i =? Z.of_nat k1) || (i =? Z.of_nat k2) then Some (out ++ [v], k)
  else do x <- pyidx self k; Some (out ++ [x], k + 1).
Fixpoint seats (p : nat -> bool) (i n : nat) : nat :=
  match n with O => O | S n' => ((if p i then 1 else 0) + seats p (S i) n')%nat end.
Lemma seats_snoc : forall p n i, seats p i (S n) = (seats p i n + if p (i + n)%nat then 1 else 0)%nat.
Proof.
  induction n; intros i.
  - simpl. rewrite !Nat.add_0_r. destruct (p i); lia.
  - change (seats p i (S (S n))) with ((if p i then 1 else 0) + seats p (S i) (S n))%nat. rewrite IHn.
    change (seats p i (S n)) with ((if p i then 1 else 0) + seats p (S i) n)%nat.
    replace (S i + n)%nat with (i + S n)%nat by lia. lia.
Qed.
Lemma seats_two : forall n k1 k2, (k1 < n)%nat -> (k2 < n)%nat -> k1 <> k2 -> seats (others2 k1 k2) 0 n = (n - 2)%nat.
Proof.
  assert (A : forall n i k1 k2, (k1 < i)%nat -> (k2 < i)%nat -> seats (others2 k1 k2) i n = n).
  { induction n; intros i k1 k2 H1 H2; simpl; auto. rewrite IHn by lia. unfold others2.
    destruct (Nat.eqb_spec i k1), (Nat.eqb_spec i k2); simpl; lia. }
  assert (B : forall n i k1 k2, (k1 < i)%nat -> (i <= k2 < i + n)%nat -> seats (others2 k1 k2) i n = (n - 1)%nat /\ seats (others2 k2 k1) i n = (n - 1)%nat).
  { induction n; intros i k1 k2 H1 H2; [lia|]. simpl. destruct (Nat.eq_dec i k2) as [->|].
    - rewrite !A by lia. unfold others2. destruct (Nat.eqb_spec k2 k1), (Nat.eqb_spec k2 k2); simpl; lia.
    - destruct (IHn (S i) k1 k2) as [-> ->]; try lia. unfold others2.
      destruct (Nat.eqb_spec i k1), (Nat.eqb_spec i k2); simpl; lia. }
  assert (C : forall n i k1 k2, (i <= k1 < i + n)%nat -> (i <= k2 < i + n)%nat -> k1 <> k2 -> seats (others2 k1 k2) i n = (n - 2)%nat).
  { induction n; intros i k1 k2 H1 H2 Ne; [lia|]. simpl. destruct (Nat.eq_dec i k1) as [->|].
    - rewrite (proj1 (B n (S k1) k1 k2 ltac:(lia) ltac:(lia))). unfold others2. rewrite Nat.eqb_refl. simpl. lia.
    - destruct (Nat.eq_dec i k2) as [->|].
      + rewrite (proj2 (B n (S k2) k2 k1 ltac:(lia) ltac:(lia))). unfold others2. rewrite Nat.eqb_refl, orb_true_r. simpl. lia.
      + rewrite IHn by lia. unfold others2. destruct (Nat.eqb_spec i k1), (Nat.eqb_spec i k2); simpl; lia. }
  intros n k1 k2 H1 H2 Ne. apply C; lia.
Qed.
Lemma keep_from_app : forall p l m i, keep_axes_from i p (l ++ m) = keep_axes_from i p l ++ keep_axes_from (i + length l) p m.
Proof.
  induction l; intros m i; simpl; [now rewrite Nat.add_0_r|]. rewrite IHl. replace (i + S (length l))%nat with (S i + length l)%nat by lia.
  now destruct (p i).
Qed.
Lemma foldM_app : forall A B (f : A -> B -> option A) l m a, foldM f (l ++ m) a = (do b <- foldM f l a; foldM f m b).
Proof. induction l; simpl; intros; auto. destruct (f a0 a); simpl; auto. Qed.
Lemma embed_loop : forall self v k1 k2 n, (seats (others2 k1 k2) 0 n <= length self)%nat ->
  exists out, foldM (embed_step self v k1 k2) (zrange 0 (Z.of_nat n)) ([], 0) =
      Some (out, Z.of_nat (seats (others2 k1 k2) 0 n)) /\
    length out = n /\ (forall i, (i < n)%nat -> others2 k1 k2 i = false -> nth_error out i = Some v) /\
    keep_axes (others2 k1 k2) out = firstn (seats (others2 k1 k2) 0 n) self.
Proof.
  intros self v k1 k2. induction n as [|n IH]; intros H.
  - exists []. split; [reflexivity|split; [auto|split; [lia|auto]]].
  - rewrite seats_snoc in H. destruct IH as (out & F & L & S1 & S2); [lia|].
    replace (Z.of_nat (S n)) with (Z.of_nat n + 1) by lia. rewrite zrange_snoc, foldM_app, F by lia. cbn [obind foldM].
    unfold embed_step at 1. rewrite seats_snoc. simpl (0 + n)%nat in *.
    assert (B : (Z.of_nat n =? Z.of_nat k1) || (Z.of_nat n =? Z.of_nat k2) = negb (others2 k1 k2 n)).
    { unfold others2. destruct (Nat.eqb_spec n k1), (Nat.eqb_spec n k2), (Z.eqb_spec (Z.of_nat n) (Z.of_nat k1)),
        (Z.eqb_spec (Z.of_nat n) (Z.of_nat k2)); try lia; reflexivity. }
    rewrite B. destruct (others2 k1 k2 n) eqn:O; cbn [negb].
    + set (k := seats (others2 k1 k2) 0 n) in *. rewrite pyidx_nat.
      destruct (nth_error self k) as [x|] eqn:E; [|apply nth_error_None in E; lia]. cbn [obind].
      exists (out ++ [x]). split; [do 2 f_equal; lia|split; [rewrite app_length; simpl; lia|split]].
      * intros i Hi Oi. destruct (Nat.eq_dec i n) as [->|]; [congruence|]. rewrite nth_error_app1 by lia. apply S1; auto. lia.
      * unfold keep_axes in *. rewrite keep_from_app, S2, L. simpl. rewrite O.
        apply nth_error_split in E. destruct E as (pre & post & -> & E). rewrite <- E.
        rewrite firstn_app, firstn_all, Nat.sub_diag, firstn_O, app_nil_r. rewrite firstn_app.
        rewrite firstn_all2 by lia. replace (length pre + 1 - length pre)%nat with 1%nat by lia. reflexivity.
    + cbn [obind]. exists (out ++ [v]). rewrite Nat.add_0_r. split; [auto|split; [rewrite app_length; simpl; lia|split]].
      * intros i Hi Oi. destruct (Nat.eq_dec i n) as [->|].
        -- rewrite nth_error_app2, L, Nat.sub_diag by lia. reflexivity.
        -- rewrite nth_error_app1 by lia. apply S1; auto. lia.
      * unfold keep_axes in *. rewrite keep_from_app, S2, L. simpl. now rewrite O, app_nil_r.
Qed.
Lemma foldM_ext_in : forall A B (f g : A -> B -> option A) l a, (forall a b, f a b = g a b) -> foldM f l a = foldM g l a.
Proof. induction l; simpl; intros; auto. rewrite H. destruct (g a0 a); simpl; auto. Qed.
(** A shape is determined by the sizes at two axes and the sizes of the others. *)
Lemma two_axes_unique : forall k1 k2 v a b, length a = length b ->
  (forall i, (i < length a)%nat -> others2 k1 k2 i = false -> nth_error a i = Some v /\ nth_error b i = Some v) ->
  keep_axes (others2 k1 k2) a = keep_axes (others2 k1 k2) b -> a = b.
Proof.
  intros k1 k2 v. unfold keep_axes. 
  assert (G : forall a b i, length a = length b ->
    (forall j, (j < length a)%nat -> others2 k1 k2 (i + j) = false -> nth_error a j = Some v /\ nth_error b j = Some v) ->
    keep_axes_from i (others2 k1 k2) a = keep_axes_from i (others2 k1 k2) b -> a = b).
  { induction a as [|x a IH]; intros [|y b] i L N K; simpl in L; try lia; auto.
    assert (N' : forall j, (j < length a)%nat -> others2 k1 k2 (S i + j) = false -> nth_error a j = Some v /\ nth_error b j = Some v).
    { intros j Hj O. apply (N (S j)); [simpl; lia|]. now replace (i + S j)%nat with (S i + j)%nat by lia. }
    simpl in K. destruct (others2 k1 k2 i) eqn:O.
    - injection K as -> K. f_equal. apply (IH b (S i)); auto.
    - destruct (N 0%nat) as [A B]; [simpl; lia|now rewrite Nat.add_0_r|]. simpl in A, B. injection A as ->. injection B as ->.
      f_equal. apply (IH b (S i)); auto. }
  intros a b L N K. apply (G a b 0%nat); auto.
Qed.
Theorem C42_diag_embed_spec : forall pre n offset dim1 dim2 k1 k2 out,
  let self := pre ++ [n] in
  denotes (S (length self)) dim1 k1 -> denotes (S (length self)) dim2 k2 -> k1 <> k2 ->
  (diag_embed self offset dim1 dim2 = Some out <->
   length out = S (length self) /\ nth_error out k1 = Some (n + Z.abs offset) /\
   nth_error out k2 = Some (n + Z.abs offset) /\ keep_axes (others2 k1 k2) out = pre).
Proof.
  intros pre n offset dim1 dim2 k1 k2 out self D1 D2 Ne.
  assert (L : length self = S (length pre)) by (unfold self; rewrite app_length; simpl; lia).
  assert (W : forall d k, denotes (S (length self)) d k -> (if d <? 0 then zlen self + 1 + d else d) = Z.of_nat k).
  { intros d k [Hk [-> | ->]]; unfold zlen; destruct (Z.ltb_spec (Z.of_nat k) 0), (Z.ltb_spec (Z.of_nat k - Z.of_nat (S (length self))) 0); lia. }
  destruct (embed_loop self (n + Z.abs offset) k1 k2 (S (length self))) as (o & F & Lo & S1 & S2).
  { rewrite seats_two by (destruct D1, D2; auto). lia. }
  assert (E : diag_embed self offset dim1 dim2 = Some o).
  { unfold diag_embed. destruct D1 as [K1 D1'], D2 as [K2 D2']. unfold zlen.
    rewrite !(proj2 (guard_true _)) by lia. cbn [obind].
    replace (if dim1 <? 0 then Z.of_nat (length self) + 1 + dim1 else dim1) with (Z.of_nat k1) by (symmetry; now apply W).
    replace (if dim2 <? 0 then Z.of_nat (length self) + 1 + dim2 else dim2) with (Z.of_nat k2) by (symmetry; now apply W).
    replace (Z.of_nat (length self) + 1) with (Z.of_nat (S (length self))) by lia.
    rewrite (foldM_ext_in _ _ _ (embed_step self (n + Z.abs offset) k1 k2)).
    - rewrite F. reflexivity.
    - intros [a k] i. unfold embed_step. rewrite (pyidx_neg _ self (-1)) by lia.
      destruct (Z.ltb_spec (-1 + zlen self) 0); [unfold zlen in *; lia|].
      replace (nth_error self (Z.to_nat (-1 + zlen self))) with (Some n); [reflexivity|].
      unfold zlen. rewrite L. replace (Z.to_nat (-1 + Z.of_nat (S (length pre)))) with (length pre) by lia.
      unfold self. rewrite nth_error_app2, Nat.sub_diag by lia. reflexivity. }
  rewrite seats_two in S2 by (destruct D1, D2; auto). rewrite L in S2.
  replace (S (S (length pre)) - 2)%nat with (length pre) in S2 by lia.
  unfold self in S2 at 1. rewrite firstn_app, firstn_all, Nat.sub_diag, firstn_O, app_nil_r in S2.
  assert (O1 : others2 k1 k2 k1 = false) by (unfold others2; now rewrite Nat.eqb_refl).
  assert (O2 : others2 k1 k2 k2 = false) by (unfold others2; now rewrite Nat.eqb_refl, orb_true_r).
  rewrite E. split.
  - intros [= <-]. split; [auto|split; [|split; [|auto]]]; apply S1; auto; [destruct D1|destruct D2]; lia.
  - intros (L' & N1 & N2 & K). f_equal. apply (two_axes_unique k1 k2 (n + Z.abs offset)); [lia| |congruence].
    intros i Hi O. split; [apply S1; auto; lia|]. unfold others2 in O. destruct (Nat.eqb_spec i k1); [now subst|].
    destruct (Nat.eqb_spec i k2); [now subst|discriminate].
Qed.
Lemma keep_nonneg : forall k1 k2 v a, (forall i, (i < length a)%nat -> others2 k1 k2 i = false -> nth_error a i = Some v) ->
  0 <= v -> Forall (fun x => 0 <= x) (keep_axes (others2 k1 k2) a) -> Forall (fun x => 0 <= x) a.
Proof.
  intros k1 k2 v a N Hv. unfold keep_axes.
  assert (G : forall a i, (forall j, (j < length a)%nat -> others2 k1 k2 (i + j) = false -> nth_error a j = Some v) ->
    Forall (fun x => 0 <= x) (keep_axes_from i (others2 k1 k2) a) -> Forall (fun x => 0 <= x) a).
  { clear a N. induction a as [|x a IH]; intros i N F; auto. simpl in F.
    assert (N' : forall j, (j < length a)%nat -> others2 k1 k2 (S i + j) = false -> nth_error a j = Some v).
    { intros j Hj O. apply (N (S j)); [simpl; lia|]. now replace (i + S j)%nat with (S i + j)%nat by lia. }
    destruct (others2 k1 k2 i) eqn:O.
    - inversion F; subst. constructor; eauto.
    - specialize (N 0%nat ltac:(simpl; lia)). rewrite Nat.add_0_r in N. specialize (N O). simpl in N. injection N as ->.
      constructor; eauto. }
  apply G, N.
Qed.
(** The diagonal of an embedded diagonal is the tensor itself. *)
Theorem C42_diagonal_inverts_diag_embed : forall self offset dim1 dim2 k1 k2 out, self <> [] ->
  Forall (fun x => 0 <= x) self ->
  denotes (S (length self)) dim1 k1 -> denotes (S (length self)) dim2 k2 -> k1 <> k2 ->
  diag_embed self offset dim1 dim2 = Some out -> diagonal out offset dim1 dim2 = Some self.
Proof.
  intros self offset dim1 dim2 k1 k2 out Hn Hs D1 D2 Ne H.
  destruct (exists_last Hn) as (pre & n & E). subst self.
  apply (C42_diag_embed_spec pre n offset dim1 dim2 k1 k2 out D1 D2 Ne) in H. destruct H as (L & N1 & N2 & K).
  apply Forall_app in Hs. destruct Hs as [Hp Hn']. apply Forall_inv in Hn'.
  assert (F : Forall (fun x => 0 <= x) out).
  { apply (keep_nonneg k1 k2 (n + Z.abs offset)); [|lia|now rewrite K]. intros i Hi O. unfold others2 in O.
    destruct (Nat.eqb_spec i k1); [now subst|]. destruct (Nat.eqb_spec i k2); [now subst|discriminate]. }
  apply C42_diagonal_spec; auto. rewrite L. exists k1, k2, (n + Z.abs offset), (n + Z.abs offset).
  split; [auto|split; [auto|split; [auto|split; [auto|split; [auto|]]]]]. rewrite K. do 2 f_equal.
  rewrite diag_count by lia. destruct (Z.ltb_spec offset 0); lia.
Qed.
(** dim1 and dim2 naming the same axis, one counted from the end, are only compared before
    they are resolved: PyTorch rejects the call, the function answers. *)
Theorem C42_same_axis_accepted_refuted : forall x offset,
  denotes 2 0 0 /\ denotes 2 (-2) 0 /\ diag_embed [x] offset 0 (-2) = Some [x + Z.abs offset; x].
Proof. intros. split; [unfold denotes; lia|split; [unfold denotes; lia|reflexivity]]. Qed.
Theorem C42_diag_embed_rejects : forall self offset dim1 dim2,
  dim1 = dim2 \/ (forall k, ~ denotes (S (length self)) dim1 k) \/ (forall k, ~ denotes (S (length self)) dim2 k) ->
  diag_embed self offset dim1 dim2 = None.
Proof.
  assert (R : forall (self : list Z) d, (forall k, ~ denotes (S (length self)) d k) ->
    (d <? zlen self + 1) = false \/ (- (zlen self + 1) <=? d) = false).
  { intros self d H. unfold zlen, denotes in *. destruct (Z.ltb_spec d (Z.of_nat (length self) + 1)); auto.
    destruct (Z.leb_spec (- (Z.of_nat (length self) + 1)) d); auto. exfalso. destruct (Z.le_gt_cases 0 d).
    - apply (H (Z.to_nat d)). lia.
    - apply (H (Z.to_nat (d + Z.of_nat (S (length self))))). lia. }
  intros self offset dim1 dim2 H. unfold diag_embed. destruct (Z.eqb_spec dim1 dim2); [reflexivity|]. cbn [negb guard obind].
  destruct H as [H|[H|H]]; [easy| |]; apply R in H; destruct H as [E|E]; rewrite E; cbn [guard obind];
    repeat (match goal with |- context [guard ?b] => destruct b; cbn [guard obind]; auto end); auto.
Qed.

(** diag: a vector becomes the square matrix with it on that diagonal, a matrix its diagonal. *)
Theorem C42_diag_vector : forall n offset, diag [n] offset = diag_embed [n] offset 0 1.
Proof. reflexivity. Qed.
Theorem C42_diag_matrix : forall r c offset, 0 <= r -> 0 <= c ->
  diag [r; c] offset = Some [zlen (filter (on_diag offset) (cells r c))].
Proof. intros r c offset Hr Hc. rewrite diag_count by auto. reflexivity. Qed.
Theorem C42_diag_other_ranks : forall self offset, length self <> 1%nat -> length self <> 2%nat -> diag self offset = None.
Proof.
  intros self offset H1 H2. unfold diag, zlen. destruct (Z.eqb_spec (Z.of_nat (length self)) 1); [lia|].
  destruct (Z.eqb_spec (Z.of_nat (length self)) 2); [lia|]. reflexivity.
Qed.
Theorem C42_diag_inverts_itself : forall n offset b, 0 <= n -> diag [n] offset = Some b -> diag b offset = Some [n].
Proof.
  intros n offset b Hn H. injection H as <-. rewrite C42_diag_matrix by lia. do 2 f_equal. rewrite diag_count by lia.
  destruct (Z.ltb_spec offset 0); lia.
Qed.
Example C42_nonvacuous : diagonal [2; 3; 4] 1 (-1) (-2) = Some [2; 2] /\ diagonal [2; 3; 4] 0 1 1 = None /\
  diag_embed [2; 3] (-1) (-2) 0 = Some [4; 4; 2] /\ diagonal [4; 4; 2] (-1) (-2) 0 = Some [2; 3] /\
  diag [3; 4] 1 = Some [3] /\ diag [2; 3; 4] 0 = None.
Proof. repeat split. Qed.

Print Assumptions C42_diagonal_spec.
Print Assumptions C42_diag_embed_spec.
Print Assumptions C42_diagonal_inverts_diag_embed.
