(** Property C43: padding, repetition, tiling, pixel shuffling. *)
From Coq Require Import ZArith Bool Lia List.
From Verif Require Import Prelude ShapeCoreModel ShapeCoreSpec ShapeCoreProofs ShapeBroadcastProps ShapeViewProps
  ShapeDimProps ShapeMiscModel ShapeMiscSpec ShapeFlatProps.
Import ListNotations.
Open Scope Z_scope.

Lemma pyidx_from_end : forall (s : list Z) k, (k < length s)%nat -> pyidx s (- (Z.of_nat k + 1)) = Some (rdim s k).
Proof.
  intros s k H. rewrite pyidx_neg by lia. destruct (Z.ltb_spec (- (Z.of_nat k + 1) + zlen s) 0); [unfold zlen in *; lia|].
  rewrite <- rdim_nth by auto. f_equal. unfold zlen. lia.
Qed.
Lemma rdim_set : forall (s : list Z) k v j, (k < length s)%nat -> (j < length s)%nat ->
  rdim (set_nth (length s - 1 - k) v s) j = if (j =? k)%nat then v else rdim s j.
Proof.
  intros s k v j Hk Hj.
  assert (E : Some (rdim (set_nth (length s - 1 - k) v s) j) = Some (if (j =? k)%nat then v else rdim s j)).
  { rewrite <- rdim_nth by (now rewrite set_nth_length). rewrite set_nth_length. destruct (Nat.eqb_spec j k) as [->|Ne].
    - rewrite nth_error_set_nth_eq; auto. lia.
    - rewrite nth_error_set_nth_neq by lia. now rewrite rdim_nth. }
  congruence.
Qed.
Lemma pyset_from_end : forall (s : list Z) k v, (k < length s)%nat ->
  pyset s (- (Z.of_nat k + 1)) v = Some (set_nth (length s - 1 - k) v s).
Proof.
  intros s k v H. apply pyset_valid. unfold denotes. lia.
Qed.
Definition pads_ok (validate : bool) (s pad : list Z) (n : nat) : Prop :=
  validate = true -> forall k, (k < n)%nat -> nth (2 * k) pad 0 < rdim s k /\ nth (2 * k + 1) pad 0 < rdim s k.
Lemma foldM_app' : forall A B (f : A -> B -> option A) l m a, foldM f (l ++ m) a = (do b <- foldM f l a; foldM f m b).
Proof. induction l; simpl; intros; auto. destruct (f a0 a); simpl; auto. Qed.
Lemma pad_loop : forall s pad validate n out, (n <= length s)%nat -> (2 * n <= length pad)%nat ->
  (foldM (fun input i =>
    do lo <- pyidx pad (2 * i);
    do hi <- pyidx pad (2 * i + 1);
    do x <- pyidx input (- (i + 1));
    assert negb validate || ((lo <? x) && (hi <? x));
    pyset input (- (i + 1)) (x + (lo + hi))) (zrange 0 (Z.of_nat n)) s = Some out <->
   pads_ok validate s pad n /\ length out = length s /\
   forall k, (k < length s)%nat -> rdim out k = rdim s k + if (k <? n)%nat then pad_at pad k else 0).
Proof.
  intros s pad validate. set (F := fun (input : list Z) (i : Z) => _).
  induction n as [|n IH]; intros out Hn Hp.
  - change (zrange 0 (Z.of_nat 0)) with (@nil Z). cbn [foldM]. split.
    + intros [= <-]. split; [unfold pads_ok; lia|split; [auto|]]. intros k Hk. cbn. lia.
    + intros (_ & L & R). f_equal. apply list_rdim_ext; [lia|]. intros k Hk. rewrite R by lia. cbn. lia.
  - replace (Z.of_nat (S n)) with (Z.of_nat n + 1) by lia. rewrite zrange_snoc, foldM_app' by lia.
    assert (St : forall m, length m = length s -> rdim m n = rdim s n ->
      (do b <- Some m; foldM F [Z.of_nat n] b) =
      if negb validate || ((nth (2 * n) pad 0 <? rdim s n) && (nth (2 * n + 1) pad 0 <? rdim s n))
      then Some (set_nth (length s - 1 - n) (rdim s n + pad_at pad n) m) else None).
    { intros m Lm Rm. cbn [obind foldM]. unfold F at 1.
      replace (2 * Z.of_nat n) with (Z.of_nat (2 * n)) by lia.
      replace (Z.of_nat (2 * n) + 1) with (Z.of_nat (2 * n + 1)) by lia. rewrite !pyidx_nat.
      rewrite (nth_error_nth' pad 0 (n := 2 * n)) by lia. rewrite (nth_error_nth' pad 0 (n := 2 * n + 1)) by lia. cbn [obind].
      rewrite pyidx_from_end by lia. cbn [obind]. rewrite Rm.
      destruct (negb validate || ((nth (2 * n) pad 0 <? rdim s n) && (nth (2 * n + 1) pad 0 <? rdim s n))); cbn [guard obind]; auto.
      rewrite pyset_from_end by lia. cbn [obind]. rewrite Lm. reflexivity. }
    assert (V : (negb validate || ((nth (2 * n) pad 0 <? rdim s n) && (nth (2 * n + 1) pad 0 <? rdim s n))) = true <->
      (validate = true -> nth (2 * n) pad 0 < rdim s n /\ nth (2 * n + 1) pad 0 < rdim s n)).
    { destruct validate; cbn [negb orb]; [|split; [discriminate|auto]]. rewrite andb_true_iff, !Z.ltb_lt. tauto. }
    split.
    + intros H. destruct (foldM F (zrange 0 (Z.of_nat n)) s) as [m|] eqn:E; [|discriminate].
      destruct (proj1 (IH m ltac:(lia) ltac:(lia)) eq_refl) as (P & Lm & R).
      assert (Rn : rdim m n = rdim s n) by (rewrite R by lia; rewrite (proj2 (Nat.ltb_ge n n)) by lia; lia).
      rewrite St in H by auto.
      destruct (negb validate || _) eqn:B; [|discriminate]. pose proof (proj1 V eq_refl) as B'. injection H as <-.
      split; [|split; [rewrite set_nth_length; auto|]].
      * intros Hv k Hk. destruct (Nat.eq_dec k n) as [->|]; [auto|]. apply P; auto. lia.
      * intros k Hk. rewrite <- Lm. rewrite rdim_set by lia. destruct (Nat.eqb_spec k n) as [->|].
        -- rewrite (proj2 (Nat.ltb_lt n (S n))) by lia. reflexivity.
        -- rewrite R by lia. destruct (Nat.ltb_spec k n), (Nat.ltb_spec k (S n)); auto; lia.
    + intros (P & L & R).
      set (m := set_nth (length s - 1 - n) (rdim s n) out).
      assert (Em : foldM F (zrange 0 (Z.of_nat n)) s = Some m).
      { apply IH; [lia|lia|]. unfold m. rewrite set_nth_length. split; [|split; [auto|]].
        - intros Hv k Hk. apply P; auto.
        - intros k Hk. rewrite <- L. rewrite rdim_set by lia. destruct (Nat.eqb_spec k n) as [->|].
          + rewrite (proj2 (Nat.ltb_ge n n)) by lia. lia.
          + rewrite R by lia. destruct (Nat.ltb_spec k n), (Nat.ltb_spec k (S n)); auto; lia. }
      rewrite Em. unfold m. rewrite St.
      * rewrite (proj2 V) by (intros; apply P; auto). f_equal.
        apply list_rdim_ext; rewrite !set_nth_length; auto. intros k Hk.
        transitivity (if (k =? n)%nat then rdim s n + pad_at pad n else rdim out k).
        -- replace (length s - 1 - n)%nat with (length (set_nth (length s - 1 - n) (rdim s n) out) - 1 - n)%nat at 1 by (rewrite set_nth_length; lia).
           rewrite rdim_set by (rewrite set_nth_length; lia). destruct (Nat.eqb_spec k n); auto.
           rewrite <- L. rewrite rdim_set by lia. destruct (Nat.eqb_spec k n); [easy|reflexivity].
        -- destruct (Nat.eqb_spec k n) as [->|]; auto. rewrite R by lia.
           now rewrite (proj2 (Nat.ltb_lt n (S n))) by lia.
      * now rewrite set_nth_length.
      * rewrite <- L. rewrite rdim_set by lia. now rewrite Nat.eqb_refl.
Qed.
(** Each (low, high) pair widens one axis, counted from the right; the other axes are kept. *)
Theorem C43_pad_spec : forall s pad validate out, pad_shape_fn s pad validate = Some out <->
  exists n, length pad = (2 * n)%nat /\ (n <= length s)%nat /\ pads_ok validate s pad n /\ padded s pad out.
Proof.
  intros s pad validate out. unfold pad_shape_fn.
  assert (Q : forall n, length pad = (2 * n)%nat -> zlen pad / 2 = Z.of_nat n /\ zlen pad mod 2 = 0).
  { intros n E. unfold zlen. rewrite E. lia. }
  assert (P : forall n, length pad = (2 * n)%nat -> (n <= length s)%nat ->
     ((forall k, (k < length s)%nat -> rdim out k = rdim s k + (if (k <? n)%nat then pad_at pad k else 0)) <->
      (forall k, (k < length s)%nat -> rdim out k = rdim s k + pad_at pad k))).
  { intros n E Hn. split; intros H k Hk; rewrite H by auto; destruct (Nat.ltb_spec k n); auto;
    unfold pad_at; rewrite !nth_overflow by lia; lia. }
  split.
  - intros H. destruct (Z.eqb_spec (zlen pad mod 2) 0) as [E|]; [|discriminate]. cbn [guard obind] in H.
    destruct (Z.leb_spec (zlen pad / 2) (zlen s)) as [Le|]; [|discriminate]. cbn [guard obind] in H.
    set (n := Z.to_nat (zlen pad / 2)). assert (En : length pad = (2 * n)%nat) by (unfold n, zlen in *; lia).
    destruct (Q n En) as [Q1 _]. rewrite Q1 in *.
    apply pad_loop in H; [|unfold zlen in *; lia|lia]. destruct H as (V & L & R).
    exists n. split; [auto|split; [unfold zlen in *; lia|split; [auto|split; [auto|]]]]. apply (P n); auto. unfold zlen in *; lia.
  - intros (n & En & Hn & V & L & R). destruct (Q n En) as [Q1 Q2]. rewrite Q1, Q2. cbn [Z.eqb guard obind].
    rewrite (proj2 (guard_true _)) by (unfold zlen; lia). cbn [obind]. apply pad_loop; [lia|lia|].
    split; [auto|split; [auto|]]. apply P; auto.
Qed.
Theorem C43_constant_pad_spec : forall s pad out, constant_pad_nd s pad = Some out <->
  exists n, length pad = (2 * n)%nat /\ (n <= length s)%nat /\ padded s pad out.
Proof.
  intros s pad out. unfold constant_pad_nd. rewrite C43_pad_spec. split; intros (n & A & B & C); exists n.
  - tauto.
  - split; [auto|split; [auto|split; [unfold pads_ok; discriminate|auto]]].
Qed.
Theorem C43_zero_padding_keeps_the_shape : forall s n validate, (n <= length s)%nat ->
  (validate = true -> Forall (fun x => 0 < x) s) -> pad_shape_fn s (repeat 0 (2 * n)) validate = Some s.
Proof.
  intros s n validate Hn Hv. apply C43_pad_spec. exists n. rewrite repeat_length. split; [auto|split; [auto|split]].
  - intros E k Hk. rewrite !nth_repeat. specialize (Hv E). rewrite Forall_forall in Hv.
    assert (0 < rdim s k); [|auto]. apply Hv. apply (nth_error_In s (length s - 1 - k)). apply rdim_nth. lia.
  - split; auto. intros k Hk. unfold pad_at. rewrite !nth_repeat. lia.
Qed.
(** Reflection and replication padding: the ranks and lengths they insist on. *)
Theorem C43_replication_pad_spec : forall n s pad out, n = 1 \/ n = 2 \/ n = 3 ->
  (replication_pad n s pad = Some out <->
   zlen pad = 2 * n /\ Z.max 2 n <= zlen s /\ padded s pad out).
Proof.
  intros n s pad out Hn. unfold replication_pad.
  assert (M : (if n =? 3 then 3 else 2) = Z.max 2 n) by (destruct Hn as [-> | [-> | ->]]; reflexivity). rewrite M.
  split.
  - intros H. destruct (Z.leb_spec (Z.max 2 n) (zlen s)); [|discriminate]. cbn [guard obind] in H.
    destruct (Z.eqb_spec (zlen pad) (2 * n)); [|discriminate]. cbn [guard obind] in H.
    apply C43_pad_spec in H. destruct H as (m & _ & _ & _ & P). auto.
  - intros (E & L & P). rewrite !(proj2 (guard_true _)) by lia. cbn [obind]. apply C43_pad_spec.
    exists (Z.to_nat n). unfold zlen in *. split; [lia|split; [lia|split; [unfold pads_ok; discriminate|auto]]].
Qed.
Theorem C43_reflection_pad_spec : forall n s pad out, n = 2 \/ n = 3 ->
  (reflection_pad n s pad = Some out <->
   zlen pad = 2 * n /\ n <= zlen s /\ padded s pad out /\
   forall k, (k < Z.to_nat n)%nat -> nth (2 * k) pad 0 < rdim s k /\ nth (2 * k + 1) pad 0 < rdim s k).
Proof.
  intros n s pad out Hn. unfold reflection_pad.
  assert (M : (if n =? 3 then 3 else 2) = n) by (destruct Hn as [-> | ->]; reflexivity). rewrite M.
  assert (N1 : (n =? 1) = false) by (destruct Hn as [-> | ->]; reflexivity). rewrite N1. cbn [orb].
  split.
  - intros H. destruct (Z.leb_spec n (zlen s)); [|discriminate]. cbn [guard obind] in H.
    destruct (Z.eqb_spec (zlen pad) (2 * n)); [|discriminate]. cbn [guard obind] in H.
    apply C43_pad_spec in H. destruct H as (m & Em & _ & V & P). split; [auto|split; [auto|split; [auto|]]].
    intros k Hk. apply V; auto. unfold zlen in *. lia.
  - intros (E & L & P & V). rewrite !(proj2 (guard_true _)) by lia. cbn [obind]. apply C43_pad_spec.
    exists (Z.to_nat n). unfold zlen in *. split; [lia|split; [lia|split; [|auto]]]. intros _. exact V.
Qed.
Theorem C43_reflection_pad1d_spec : forall s lo hi out,
  reflection_pad 1 s [lo; hi] = Some out <->
  2 <= zlen s /\ padded s [lo; hi] out /\ lo < rdim s 0 /\ hi < rdim s 0.
Proof.
  intros s lo hi out. unfold reflection_pad. change (1 =? 3) with false. change (1 =? 1) with true. cbn [orb guard obind].
  split.
  - intros H. destruct (Z.leb_spec 2 (zlen s)); [|discriminate]. cbn [guard obind] in H.
    apply C43_pad_spec in H. destruct H as (m & Em & _ & V & P). simpl in Em.
    destruct (V eq_refl 0%nat) as [A B]; [lia|]. split; [auto|split; [auto|auto]].
  - intros (L & P & A & B). rewrite (proj2 (guard_true _)) by lia. cbn [obind]. apply C43_pad_spec. exists 1%nat.
    split; [reflexivity|split; [unfold zlen in *; lia|split; [|auto]]]. intros _ k Hk. assert (k = 0%nat) by lia. subst. auto.
Qed.
(** reflection_pad1d takes exactly two amounts; four are accepted and pad a second axis. *)
Theorem C43_reflection_pad1d_length_unchecked_refuted : forall a b, 1 < a -> 1 < b ->
  reflection_pad 1 [a; b] [1; 1; 1; 1] = Some [a + 2; b + 2].
Proof.
  intros a b Ha Hb. unfold reflection_pad. change (1 =? 3) with false. change (1 =? 1) with true. cbn [orb guard obind].
  change (2 <=? zlen [a; b]) with true. cbn [guard obind]. apply C43_pad_spec. exists 2%nat.
  split; [reflexivity|split; [auto|split]].
  - intros _ [|[|k]] Hk; try lia; cbn; lia.
  - split; auto. intros [|[|k]] Hk; simpl in Hk; try lia; unfold rdim, pad_at; simpl; lia.
Qed.
(** constant padding with negative amounts larger than the axis gives a negative size, where
    PyTorch raises. *)
Theorem C43_negative_result_accepted_refuted : forall n, constant_pad_nd [n] [- n; -1] = Some [-1].
Proof. intros n. apply C43_constant_pad_spec. exists 1%nat. split; [auto|split; [auto|split; auto]]. intros [|k] Hk; simpl in Hk; try lia. unfold rdim, pad_at; simpl; lia. Qed.

(** repeat: sizes multiply axis by axis from the right. *)
Theorem C43_repeat_spec : forall s repeats out, repeat_shape s repeats = Some out <->
  (length s <= length repeats)%nat /\ length out = length repeats /\
  forall k, (k < length repeats)%nat -> rdim out k = rdim s k * rdim repeats k.
Proof.
  intros s repeats out. unfold repeat_shape. destruct (Z.leb_spec (zlen s) (zlen repeats)) as [L|L]; cbn [guard obind].
  2:{ split; [discriminate|]. intros (H & _). unfold zlen in L. lia. }
  assert (L' : (length s <= length repeats)%nat) by (unfold zlen in L; lia).
  set (d := (length repeats - length s)%nat).
  assert (Dz : zlen repeats - zlen s = Z.of_nat d) by (unfold d, zlen; lia).
  assert (M : mapM (fun i => do x <- pyidx s i; do r <- pyidx repeats (i + (zlen repeats - zlen s)); Some (x * r))
      (zrange 0 (zlen s)) = Some (imap (fun i x => x * nth (i + d) repeats 0) 0 s)).
  { apply mapM_imap. intros i x E. rewrite pyidx_nat, E. cbn [obind]. rewrite Dz.
    replace (Z.of_nat i + Z.of_nat d) with (Z.of_nat (i + d)) by lia. rewrite pyidx_nat.
    assert (i < length s)%nat by (apply nth_error_Some; congruence).
    rewrite (nth_error_nth' repeats 0 (n := i + d)) by (unfold d; lia). reflexivity. }
  assert (R : (if zlen repeats =? 0 then unary s else
    do a <- mapM (pyidx repeats) (zrange 0 (zlen repeats - zlen s));
    do b <- mapM (fun i => do x <- pyidx s i; do r <- pyidx repeats (i + (zlen repeats - zlen s)); Some (x * r))
              (zrange 0 (zlen s)); Some (a ++ b)) = Some (firstn d repeats ++ imap (fun i x => x * nth (i + d) repeats 0) 0 s)).
  { destruct (Z.eqb_spec (zlen repeats) 0) as [E|E].
    - unfold zlen in E. destruct repeats; [|simpl in E; lia]. destruct s; [|simpl in L'; lia]. reflexivity.
    - rewrite M, Dz. rewrite prefix_n by (unfold d; lia). reflexivity. }
  cbv zeta. rewrite R. clear R M.
  set (o := firstn d repeats ++ _).
  assert (Lo : length o = length repeats) by (unfold o; rewrite app_length, firstn_length, imap_length; unfold d; lia).
  assert (Ro : forall k, (k < length repeats)%nat -> rdim o k = rdim s k * rdim repeats k).
  { intros k Hk. assert (E : Some (rdim o k) = Some (rdim s k * rdim repeats k)); [|congruence].
    rewrite <- rdim_nth, Lo by lia. unfold o. destruct (Nat.le_gt_cases (length s) k).
    - rewrite nth_error_app1 by (rewrite firstn_length; unfold d; lia). rewrite nth_error_firstn by (unfold d; lia).
      rewrite rdim_nth by auto. rewrite (rdim_out s k) by auto. f_equal. ring.
    - rewrite nth_error_app2 by (rewrite firstn_length; unfold d; lia). rewrite firstn_length, imap_nth.
      replace (length repeats - 1 - k - Nat.min d (length repeats))%nat with (length s - 1 - k)%nat by (unfold d; lia).
      rewrite rdim_nth by auto. cbn [option_map]. simpl. do 2 f_equal.
      replace (length s - 1 - k + d)%nat with (length repeats - 1 - k)%nat by (unfold d; lia).
      apply nth_error_nth. now apply rdim_nth. }
  split.
  - intros [= <-]. auto.
  - intros (_ & Lout & Rout). f_equal. apply list_rdim_ext; [congruence|]. intros k Hk. rewrite Ro, Rout by lia. reflexivity.
Qed.
Theorem C43_tile_spec : forall s dims, exists out, tile s dims = Some out /\
  length out = Nat.max (length s) (length dims) /\
  forall k, (k < length out)%nat -> rdim out k = rdim s k * rdim dims k.
Proof.
  intros s dims. unfold tile. set (d := if zlen dims <? zlen s then _ else dims).
  assert (L : length d = Nat.max (length s) (length dims)).
  { unfold d, zlen. destruct (Z.ltb_spec (Z.of_nat (length dims)) (Z.of_nat (length s))); [|lia].
    rewrite app_length, repeat_length. lia. }
  assert (R : forall k, (k < length d)%nat -> rdim d k = rdim dims k).
  { intros k Hk. unfold d in *. destruct (Z.ltb_spec (zlen dims) (zlen s)); auto. unfold rdim. rewrite rev_app_distr.
    destruct (Nat.lt_ge_cases k (length dims)).
    - rewrite app_nth1; auto. now rewrite rev_length.
    - rewrite app_nth2 by (rewrite rev_length; auto). rewrite rev_length. rewrite (nth_overflow (rev dims)) by (now rewrite rev_length).
      rewrite <- (repeat_length 1 (Z.to_nat (zlen s - zlen dims))) in *.
      set (n := Z.to_nat (zlen s - zlen dims)). assert (Rr : rev (repeat 1 n) = repeat 1 n).
      { induction n; simpl; auto. rewrite IHn. clear. induction n; simpl; auto. now rewrite IHn. }
      rewrite repeat_length, Rr. destruct (Nat.lt_ge_cases (k - length dims) n).
      + now apply nth_repeat.
      + apply nth_overflow. now rewrite repeat_length. }
  set (o := map (fun k => rdim s k * rdim dims k) (rev (seq 0 (length d)))).
  assert (Lo : length o = length d) by (unfold o; now rewrite map_length, rev_length, seq_length).
  assert (Ro : forall k, (k < length d)%nat -> rdim o k = rdim s k * rdim dims k).
  { intros k Hk. unfold rdim at 1, o. rewrite <- map_rev, rev_involutive.
    rewrite (nth_indep _ 1 ((fun k => rdim s k * rdim dims k) 0%nat)) by (now rewrite map_length, seq_length).
    rewrite (map_nth (fun k => rdim s k * rdim dims k)). rewrite seq_nth by auto. reflexivity. }
  exists o. split; [|split; [lia|]].
  - apply C43_repeat_spec. split; [lia|split; [auto|]]. intros k Hk. rewrite Ro, R by auto. reflexivity.
  - intros k Hk. apply Ro. lia.
Qed.

(** Pixel shuffling moves a factor f^2 from the channels to the two spatial axes. *)
Lemma last3 : forall s : list Z, 3 <= zlen s -> exists pre c h w, s = pre ++ [c; h; w].
Proof.
  intros s H. unfold zlen in H. destruct (rev s) as [|w [|h [|c r]]] eqn:E;
  try (apply (f_equal (@length Z)) in E; rewrite rev_length in E; simpl in E; lia).
  exists (rev r), c, h, w. rewrite <- (rev_involutive s), E. simpl. now rewrite <- !app_assoc.
Qed.
Lemma at_m3 : forall (pre : list Z) c h w, pyidx (pre ++ [c; h; w]) (-3) = Some c /\
  pyidx (pre ++ [c; h; w]) (-2) = Some h /\ pyidx (pre ++ [c; h; w]) (-1) = Some w /\
  pyslice (pre ++ [c; h; w]) 0 (-3) = pre /\ (3 <=? zlen (pre ++ [c; h; w])) = true.
Proof.
  intros pre c h w. assert (L : zlen (pre ++ [c; h; w]) = zlen pre + 3) by (rewrite zlen_app; reflexivity).
  pose proof (zlen_nonneg _ pre).
  assert (I : forall j x, nth_error [c; h; w] j = Some x -> (j < 3)%nat ->
    pyidx (pre ++ [c; h; w]) (Z.of_nat j - 3) = Some x).
  { intros j x E Hj. rewrite pyidx_neg by lia. rewrite L. destruct (Z.ltb_spec (Z.of_nat j - 3 + (zlen pre + 3)) 0); [lia|].
    rewrite nth_error_app2 by (unfold zlen; lia). rewrite <- E. f_equal. unfold zlen. lia. }
  split; [apply (I 0%nat); auto|split; [apply (I 1%nat); auto|split; [apply (I 2%nat); auto|split]]].
  - unfold pyslice. rewrite L. unfold clampb. change (0 <? 0) with false. change (-3 <? 0) with true. cbv iota zeta.
    replace (Z.max 0 (Z.min 0 (zlen pre + 3))) with 0 by lia.
    replace (Z.max 0 (Z.min (-3 + (zlen pre + 3)) (zlen pre + 3))) with (zlen pre) by lia.
    change (Z.to_nat 0) with 0%nat. cbn [skipn]. rewrite Z.sub_0_r. unfold zlen. rewrite Nat2Z.id.
    now rewrite firstn_app, firstn_all, Nat.sub_diag, firstn_O, app_nil_r.
  - rewrite L. lia.
Qed.
Theorem C43_pixel_shuffle_spec : forall s f out, pixel_shuffle s f = Some out <->
  exists pre c h w, f <> 0 /\ s = pre ++ [f * f * c; h; w] /\ out = pre ++ [c; h * f; w * f].
Proof.
  intros s f out. unfold pixel_shuffle. split.
  - intros H. destruct (Z.leb_spec 3 (zlen s)) as [L|]; [|discriminate]. cbn [guard obind] in H.
    destruct (last3 s L) as (pre & c & h & w & ->). destruct (at_m3 pre c h w) as (A & B & C & D & _).
    rewrite A, B, C, D in H. cbn [obind] in H. unfold pymod, pydiv in H.
    destruct (Z.eqb_spec (f * f) 0) as [|N]; [discriminate|]. cbn [obind] in H.
    destruct (Z.eqb_spec (c mod (f * f)) 0) as [E|]; [|discriminate]. cbn [guard obind] in H. injection H as <-.
    exists pre, (c / (f * f)), h, w. split; [intros ->; now apply N|split; [|auto]].
    f_equal. f_equal. apply Z.div_exact; auto.
  - intros (pre & c & h & w & Nf & -> & ->). destruct (at_m3 pre (f * f * c) h w) as (A & B & C & D & E).
    rewrite A, B, C, D, E. cbn [guard obind]. unfold pymod, pydiv.
    assert (N : f * f <> 0) by nia. destruct (Z.eqb_spec (f * f) 0); [easy|]. cbn [obind].
    rewrite (Z.mul_comm (f * f) c), Z.mod_mul, Z.div_mul by auto. reflexivity.
Qed.
Theorem C43_pixel_unshuffle_spec : forall s f out, pixel_unshuffle s f = Some out <->
  exists pre c h w, f <> 0 /\ s = pre ++ [c; h * f; w * f] /\ out = pre ++ [f * f * c; h; w].
Proof.
  intros s f out. unfold pixel_unshuffle. split.
  - intros H. destruct (Z.leb_spec 3 (zlen s)) as [L|]; [|discriminate]. cbn [guard obind] in H.
    destruct (last3 s L) as (pre & c & h & w & ->). destruct (at_m3 pre c h w) as (A & B & C & D & _).
    rewrite A, B, C, D in H. cbn [obind] in H. unfold pymod, pydiv in H.
    destruct (Z.eqb_spec f 0) as [|N]; [discriminate|]. cbn [obind] in H.
    destruct (Z.eqb_spec (h mod f) 0) as [E|]; [|discriminate]. cbn [guard obind] in H.
    destruct (Z.eqb_spec (w mod f) 0) as [E'|]; [|discriminate]. cbn [guard obind] in H. injection H as <-.
    exists pre, c, (h / f), (w / f). split; [auto|split].
    + do 3 f_equal; [|f_equal]; rewrite Z.mul_comm; apply Z.div_exact; auto.
    + do 2 f_equal. ring.
  - intros (pre & c & h & w & Nf & -> & ->). destruct (at_m3 pre c (h * f) (w * f)) as (A & B & C & D & E).
    rewrite A, B, C, D, E. cbn [guard obind]. unfold pymod, pydiv. destruct (Z.eqb_spec f 0); [easy|]. cbn [obind].
    rewrite !Z.mod_mul, !Z.div_mul by auto. cbn [Z.eqb guard obind]. do 3 f_equal. ring.
Qed.
Theorem C43_unshuffle_inverts_shuffle : forall s f out, pixel_shuffle s f = Some out <-> pixel_unshuffle out f = Some s.
Proof.
  intros. rewrite C43_pixel_shuffle_spec, C43_pixel_unshuffle_spec.
  split; intros (pre & c & h & w & ? & ? & ?); exists pre, c, h, w; auto.
Qed.
Theorem C43_pixel_shuffle_keeps_element_count : forall s f out, pixel_shuffle s f = Some out -> prodZ out = prodZ s.
Proof.
  intros s f out H. apply C43_pixel_shuffle_spec in H. destruct H as (pre & c & h & w & _ & -> & ->).
  rewrite !prodZ_app. simpl. ring.
Qed.

(** repeat_interleave multiplies one axis, or the number of elements. *)
Theorem C43_repeat_interleave_flat : forall s r out, repeat_interleave s r None = Some out <-> out = [prodZ s * r].
Proof.
  intros s r out. unfold repeat_interleave.
  assert (F : exists f, flatten s 0 (-1) = Some f /\ pyidx f 0 = Some (prodZ s)).
  { destruct s as [|x s'].
    - exists [1]. split; reflexivity.
    - exists [prodZ (x :: s')]. split; [|reflexivity]. apply C40_flatten_spec; [discriminate|].
      exists 0%nat, (length s'). split; [split; [simpl; lia|auto]|split; [split; [simpl; lia|simpl length; lia]|]].
      exists [], (x :: s'), []. rewrite app_nil_r. split; [auto|split; [auto|split; [auto|split; [lia|auto]]]]. }
  destruct F as (f & -> & E). cbn [obind]. rewrite E. cbn [obind]. split; [now intros [= <-]|now intros ->].
Qed.
Lemma slices_at : forall (s : list Z) dim k, denotes (length s) dim k -> dim <> -1 ->
  slice_to s dim = firstn k s /\ slice_from s (dim + 1) = skipn (S k) s.
Proof.
  intros s dim k [Hk [-> | ->]] Hd.
  - rewrite slice_to_nat. replace (Z.of_nat k + 1) with (Z.of_nat (S k)) by lia. now rewrite slice_from_nat.
  - unfold slice_to, slice_from, clampb, zlen.
    destruct (Z.ltb_spec (Z.of_nat k - Z.of_nat (length s)) 0); [|lia].
    destruct (Z.ltb_spec (Z.of_nat k - Z.of_nat (length s) + 1) 0); [|lia].
    split; f_equal; lia.
Qed.
Theorem C43_repeat_interleave_axis_partial : forall s r dim k d, denotes (length s) dim k -> dim <> -1 ->
  nth_error s k = Some d -> repeat_interleave s r (Some dim) = Some (firstn k s ++ [d * r] ++ skipn (S k) s).
Proof.
  intros s r dim k d D N E. unfold repeat_interleave. rewrite (pyidx_valid _ _ _ D), E. cbn [obind].
  destruct (slices_at _ _ _ D N) as [-> ->]. reflexivity.
Qed.
(** dim = -1: the tail after the repeated axis is taken from position 0. *)
Theorem C43_repeat_interleave_last_axis_refuted : forall pre d r,
  denotes (length (pre ++ [d])) (-1) (length pre) /\
  repeat_interleave (pre ++ [d]) r (Some (-1)) = Some (pre ++ [d * r] ++ pre ++ [d]).
Proof.
  intros pre d r. assert (D : denotes (length (pre ++ [d])) (-1) (length pre)) by (unfold denotes; rewrite app_length; simpl; lia).
  split; auto. unfold repeat_interleave. rewrite (pyidx_valid _ _ _ D).
  rewrite nth_error_app2, Nat.sub_diag by lia. cbn [nth_error obind]. f_equal.
  assert (A : slice_to (pre ++ [d]) (-1) = pre).
  { unfold slice_to, clampb, zlen. rewrite app_length. simpl length. change (-1 <? 0) with true. cbv iota.
    replace (Z.to_nat _) with (length pre) by lia. now rewrite firstn_app, firstn_all, Nat.sub_diag, firstn_O, app_nil_r. }
  rewrite A. change (-1 + 1) with (Z.of_nat 0). rewrite slice_from_nat. reflexivity.
Qed.
Example C43_nonvacuous : pad_shape_fn [2; 3; 4] [1; 2; 3; 4] false = Some [2; 10; 7] /\
  reflection_pad 2 [2; 2; 2] [2; 1; 1; 1] = None /\ repeat_shape [3; 4] [2; 1; 5] = Some [2; 3; 20] /\
  tile [3; 2; 8] [2; 2] = Some [3; 4; 16] /\ pixel_shuffle [1; 9; 4; 5] 3 = Some [1; 1; 12; 15] /\
  pixel_unshuffle [1; 1; 12; 15] 3 = Some [1; 9; 4; 5] /\ repeat_interleave [2; 3; 4] 5 (Some (-2)) = Some [2; 15; 4] /\
  reflection_pad 2 [2; 3; 4] [3; 1; 2; 1] = Some [2; 6; 8] /\ replication_pad 1 [5; 2] [1; 1] = Some [5; 4].
Proof. repeat split. Qed.

Print Assumptions C43_pad_spec.
Print Assumptions C43_repeat_spec.
Print Assumptions C43_tile_spec.
Print Assumptions C43_pixel_shuffle_spec.
Print Assumptions C43_unshuffle_inverts_shuffle.
