(** Property C83: products, lookups and attention. *)
From Coq Require Import ZArith Bool Lia List.
From Verif Require Import Prelude ShapeCoreModel ShapeCoreSpec ShapeCoreProofs ShapeBroadcastProps ShapeViewProps ShapeDimProps
  ShapeMatProps ShapeMiscModel ShapeMoreModel ShapeMoreSpec.
Import ListNotations.
Open Scope Z_scope.

Lemma list_eqb_eq : forall a b, list_eqb a b = true <-> a = b.
Proof.
  induction a as [|x a IH]; intros [|y b]; simpl; split; try congruence; try reflexivity.
  - intros H. apply andb_true_iff in H. destruct H as [H1 H2]. apply Z.eqb_eq in H1. apply IH in H2. congruence.
  - intros [= -> ->]. rewrite Z.eqb_refl. now apply IH.
Qed.
Lemma snoc_case : forall l : list Z, l = [] \/ exists l' x, l = l' ++ [x].
Proof. intros l. destruct l as [|y l]; [auto|right]. destruct (exists_last (l := y :: l) ltac:(discriminate)) as (l' & x & E). eauto. Qed.
Lemma broadcasts_nil_r : forall a c, broadcasts a [] c <-> c = a.
Proof. intros. rewrite <- C28_broadcast_is_common_shape. apply broadcast_nil_r. Qed.

(** ** linear *)

Lemma linear_to_matmul : forall i w o, linear_shape i w o -> exists wt, t_shape w = Some wt /\ matmul_shape i wt o.
Proof.
  intros i w o H. destruct H as [batch k m|batch k].
  - exists [k; m]. split; [reflexivity|]. destruct (snoc_case batch) as [->|(b & r & ->)].
    + apply (mms_vm k [] m). exact (ms_matrix [] k m).
    + rewrite <- !app_assoc. cbn [app]. apply (mms_mm b [] b r k m).
      * constructor.
      * exact (ms_matrix [] k m).
      * now apply broadcasts_nil_r.
  - exists [k]. split; [reflexivity|]. destruct (snoc_case batch) as [->|(b & r & ->)].
    + constructor.
    + rewrite <- app_assoc. apply mms_mv. constructor.
Qed.
Lemma app2_1 : forall (b : list Z) r c x, b ++ [r; c] = [x] -> False.
Proof. intros b r c x H. apply (f_equal (@length Z)) in H. rewrite app_length in H. simpl in H. lia. Qed.
Lemma app2_2 : forall (b : list Z) r c x y, b ++ [r; c] = [x; y] -> b = [] /\ r = x /\ c = y.
Proof. intros [|a [|a' b]] r c x y H; simpl in H; try discriminate; try (injection H; auto). apply (f_equal (@length Z)) in H. simpl in H. rewrite app_length in H. simpl in H. lia. Qed.
Lemma matmul_to_linear : forall i w wt o, t_shape w = Some wt -> matmul_shape i wt o -> linear_shape i w o.
Proof.
  intros i w wt o T M. rewrite C33_t_spec in T. destruct (Nat.leb_spec (length w) 2) as [L|]; [|discriminate]. injection T as <-.
  destruct w as [|x [|y [|]]]; [| | |simpl in L; lia]; cbn [rev app] in M.
  - inversion M as [|n b c d Hm|n b r a Hm|ba bb bc r n c a b Ha Hb Hc]; subst; inversion Hm || inversion Hb; subst;
    match goal with E : _ ++ _ = [] |- _ => destruct (app_eq_nil _ _ E); discriminate end.
  - inversion M as [n|n b c d Hm|n b r a Hm|ba bb bc r n c a b Ha Hb Hc]; subst.
    + exact (lin_vector [] x).
    + inversion Hm; subst. exfalso; eapply app2_1; eassumption.
    + inversion Hm; subst. replace (b ++ [r; x]) with ((b ++ [r]) ++ [x]) by now rewrite <- app_assoc. constructor.
    + inversion Hb; subst. exfalso; eapply app2_1; eassumption.
  - inversion M as [n|n b c d Hm|n b r a Hm|ba bb bc r n c a b Ha Hb Hc]; subst.
    + inversion Hm as [b' r' c' E]; subst. apply app2_2 in E. destruct E as (-> & -> & ->). exact (lin_matrix [] y x).
    + inversion Hb as [b' r' c' E]; subst. apply app2_2 in E. destruct E as (-> & -> & ->).
      inversion Ha; subst. apply broadcasts_nil_r in Hc. subst.
      replace (ba ++ [r; y]) with ((ba ++ [r]) ++ [y]) by now rewrite <- app_assoc.
      replace (ba ++ [r; x]) with ((ba ++ [r]) ++ [x]) by now rewrite <- app_assoc. constructor.
Qed.
Lemma linear_unfold : forall i w bias o, linear i w bias = Some o <->
  exists wt, t_shape w = Some wt /\ matmul i wt = Some o /\ bias_fits bias o.
Proof.
  intros i w bias o. unfold linear. split.
  - destruct (t_shape w) as [wt|]; [|discriminate]. cbn [obind]. destruct (matmul i wt) as [m|] eqn:M; [|discriminate]. cbn [obind].
    intros H. exists wt. split; auto. destruct bias as [b|].
    + destruct (broadcast b m) as [e|] eqn:B; [|discriminate]. cbn [obind] in H. destruct (list_eqb e m) eqn:E; [|discriminate].
      injection H as <-. apply list_eqb_eq in E. subst. split; auto. now apply C28_broadcast_is_common_shape.
    + injection H as <-. simpl. auto.
  - intros (wt & -> & M & B). cbn [obind]. rewrite M. cbn [obind]. destruct bias as [b|]; [|reflexivity].
    apply C28_broadcast_is_common_shape in B. rewrite B. cbn [obind]. now rewrite (proj2 (list_eqb_eq o o) eq_refl).
Qed.
Theorem C83_linear_shape : forall i w bias o, linear_shape i w o -> bias_fits bias o -> linear i w bias = Some o.
Proof.
  intros i w bias o H B. apply linear_unfold. destruct (linear_to_matmul _ _ _ H) as (wt & T & M).
  exists wt. split; auto. split; auto. now apply C33_matmul_shape.
Qed.
Theorem C83_linear_of_a_matrix : forall i w bias o, (length i <= 2)%nat ->
  (linear i w bias = Some o <-> linear_shape i w o /\ bias_fits bias o).
Proof.
  intros i w bias o L. split; [|intros [A B]; now apply C83_linear_shape]. intros H. apply linear_unfold in H.
  destruct H as (wt & T & M & B). split; auto. apply (matmul_to_linear _ _ wt); auto. apply C33_small_ranks_checked; auto.
  rewrite C33_t_spec in T. destruct (Nat.leb_spec (length w) 2); [|discriminate]. injection T as <-. now rewrite rev_length.
Qed.
(** With more batch axes the size of the last one is not compared with the weight. *)
Theorem C83_linear_batched_partial : forall i w bias o, (3 <= length i)%nat ->
  (linear i w bias = Some o <-> exists n, linear_shape (removelast i ++ [n]) w o /\ bias_fits bias o).
Proof.
  intros i w bias o L. rewrite linear_unfold. split.
  - intros (wt & T & M & B). apply C33_batched_partial in M; [|lia]. destruct M as (_ & n & M). exists n. split; auto.
    now apply (matmul_to_linear _ _ wt).
  - intros (n & H & B). destruct (linear_to_matmul _ _ _ H) as (wt & T & M). exists wt. split; auto. split; auto.
    apply C33_batched_partial; [lia|]. split; [destruct i; [simpl in L; lia|discriminate]|eauto].
Qed.
Theorem C83_linear_mismatch_refuted : exists i w o, linear i w None = Some o /\ forall o', ~ linear_shape i w o'.
Proof.
  exists [2; 3; 4], [5; 6], [2; 3; 5]. split; [reflexivity|]. intros o' H.
  inversion H as [batch k m E1 E2|batch k E1 E2]; subst.
  assert (X : batch ++ [6] = [2; 3] ++ [4]) by exact E1. apply app_inj_tail in X. destruct X as [_ X]. lia.
Qed.

(** ** addmm, addbmm, baddbmm, outer *)

Theorem C83_addmm_spec : forall self a b o, addmm self a b = Some o <->
  exists r k c, a = [r; k] /\ b = [k; c] /\ broadcasts self [r; c] o.
Proof.
  intros self a b o. unfold addmm. split.
  - destruct (mm a b) as [m|] eqn:M; [|discriminate]. cbn [obind]. intros B. apply C33_mm_spec in M.
    destruct M as (r & k & c & -> & -> & ->). exists r, k, c. split; auto. split; auto. now apply C28_broadcast_is_common_shape.
  - intros (r & k & c & -> & -> & B). rewrite (proj2 (C33_mm_spec [r; k] [k; c] [r; c])) by (exists r, k, c; auto).
    cbn [obind]. now apply C28_broadcast_is_common_shape.
Qed.
(** The result is the product's shape whenever [self] expands to it. *)
Theorem C83_addmm_of_a_fitting_self : forall self r k c, broadcasts self [r; c] [r; c] ->
  addmm self [r; k] [k; c] = Some [r; c].
Proof. intros. apply C83_addmm_spec. exists r, k, c. auto. Qed.
Theorem C83_addmm_larger_self_refuted : exists self a b o r c, addmm self a b = Some o /\
  mm a b = Some [r; c] /\ ~ broadcasts self [r; c] [r; c].
Proof.
  exists [5; 2; 3], [2; 4], [4; 3], [5; 2; 3], 2, 3. split; [reflexivity|]. split; [reflexivity|]. intros [L _]. simpl in L. lia.
Qed.
Lemma expand_fits : forall self r c o, expands_to self [r; c] o -> 0 <= r -> 0 <= c -> o = [r; c].
Proof.
  intros self r c o (_ & L & H) Hr Hc. destruct o as [|x [|y [|]]]; try discriminate.
  assert (A := H 0%nat c y eq_refl eq_refl). assert (B := H 1%nat r x eq_refl eq_refl).
  assert (G : forall s t z, expands1 s t z -> 0 <= t -> z = t) by (intros s t z E; destruct E; auto; lia).
  apply G in A; auto. apply G in B; auto. now subst.
Qed.
Theorem C83_addbmm_spec : forall self a b o, addbmm self a b = Some o <->
  exists n r k c, a = [n; r; k] /\ b = [n; k; c] /\ expands_to self [r; c] o.
Proof.
  intros self a b o. unfold addbmm. split.
  - destruct (bmm a b) as [m|] eqn:M; [|discriminate]. cbn [obind]. intros B. apply C33_bmm_spec in M.
    destruct M as (n & r & k & c & -> & -> & ->). change (slice_from [n; r; c] 1) with [r; c] in B.
    exists n, r, k, c. split; auto. split; auto. now apply C30_expand_gives_requested_size.
  - intros (n & r & k & c & -> & -> & B). rewrite (proj2 (C33_bmm_spec [n; r; k] [n; k; c] [n; r; c])) by (exists n, r, k, c; auto).
    cbn [obind]. change (slice_from [n; r; c] 1) with [r; c]. now apply C30_expand_gives_requested_size.
Qed.
Theorem C83_addbmm_result : forall self n r k c o, 0 <= r -> 0 <= c ->
  addbmm self [n; r; k] [n; k; c] = Some o -> o = [r; c].
Proof.
  intros self n r k c o Hr Hc H. apply C83_addbmm_spec in H. destruct H as (n' & r' & k' & c' & E1 & E2 & E). injection E1 as <- <- <-. injection E2 as <-.
  now apply expand_fits in E.
Qed.
Theorem C83_baddbmm_spec : forall self a b o, baddbmm self a b = Some o <->
  exists n r k c, a = [n; r; k] /\ b = [n; k; c] /\ o = [n; r; c].
Proof. intros. apply C33_bmm_spec. Qed.
Theorem C83_baddbmm_self_unchecked_refuted : exists self a b o, baddbmm self a b = Some o /\ forall o', ~ expands_to self o o'.
Proof.
  exists [7], [1; 2; 4], [1; 4; 3], [1; 2; 3]. split; [reflexivity|]. intros o' (_ & L & H).
  destruct o' as [|x [|y [|z [|]]]]; try discriminate. specialize (H 0%nat 3 z eq_refl eq_refl). inversion H.
Qed.
Theorem C83_outer_spec_partial : forall n m, outer [n] [m] = Some [n; m].
Proof. reflexivity. Qed.
Theorem C83_outer_accepts_matrices_refuted : forall n m a b, outer (n :: a) (m :: b) = Some [n; m].
Proof. reflexivity. Qed.
Theorem C83_outer_needs_vectors : forall a b, outer a b = None <-> a = [] \/ b = [].
Proof.
  intros [|x a] [|y b]; unfold outer; split; auto; try discriminate; intros [H|H]; discriminate.
Qed.

(** ** bilinear and _trilinear *)

Lemma pyidx_len : forall (l : list Z) x, pyidx (l ++ [x]) (zlen (l ++ [x]) - 1) = Some x.
Proof.
  intros l x. rewrite zlen_app. change (zlen [x]) with 1. pose proof (zlen_nonneg _ l). rewrite pyidx_pos by lia.
  rewrite nth_error_app2 by (unfold zlen in *; lia). replace (Z.to_nat _ - length l)%nat with 0%nat by (unfold zlen; lia). reflexivity.
Qed.
Lemma same_prefix : forall (a b : list Z) x y pre, length a = length b ->
  (mapM (fun i => do u <- pyidx (a ++ [x]) i; do v <- pyidx (b ++ [y]) i; assert u =? v; Some u) (zrange 0 (zlen (a ++ [x]) - 1)) = Some pre
   <-> pre = a /\ a = b).
Proof.
  intros a b x y pre L. rewrite mapM_range_nth by (rewrite zlen_app; change (zlen [x]) with 1; pose proof (zlen_nonneg _ a); lia).
  rewrite zlen_app. change (zlen [x]) with 1.
  assert (G : forall k, (k < length a)%nat -> forall z,
    (do u <- pyidx (a ++ [x]) (Z.of_nat k); do v <- pyidx (b ++ [y]) (Z.of_nat k); assert u =? v; Some u) = Some z <->
    nth_error a k = Some z /\ nth_error b k = Some z).
  { intros k Hk z. rewrite !pyidx_nat, !nth_error_app1 by lia. destruct (nth_error a k) as [u|]; cbn [obind]; [|split; [discriminate|intros [? _]; discriminate]].
    destruct (nth_error b k) as [v|]; cbn [obind]; [|split; [discriminate|intros [_ ?]; discriminate]].
    destruct (Z.eqb_spec u v) as [->|NE]; cbn; split; [intros [= ->]; auto|intros [? _]; auto|discriminate|].
    intros [[= ->] [= ->]]. congruence. }
  split.
  - intros [Lp H]. assert (Ln : length pre = length a) by (unfold zlen in Lp; lia).
    assert (N : forall k, (k < length pre)%nat -> nth_error a k = nth_error pre k /\ nth_error b k = nth_error pre k).
    { intros k Hk. specialize (H k Hk). destruct (nth_error pre k) as [z|] eqn:Z0; [|apply nth_error_None in Z0; lia]. apply G in H; [auto|lia]. }
    assert (E1 : pre = a) by (apply nth_error_ext'; split; auto; intros i Hi; symmetry; now apply N).
    split; auto. subst pre. apply nth_error_ext'; split; auto. intros i Hi. symmetry. now apply N.
  - intros [-> ->]. split; [unfold zlen; lia|]. intros k Hk. destruct (nth_error b k) as [z|] eqn:Z0; [|apply nth_error_None in Z0; lia].
    apply G; auto.
Qed.
Lemma broadcasts_last : forall batch o, broadcasts (batch ++ [o]) [o] (batch ++ [o]).
Proof.
  intros batch o. split.
  - rewrite app_length. simpl. lia.
  - intros k Hk. unfold rdim. rewrite rev_app_distr. simpl. destruct k as [|k]; unfold bcast1; [auto|].
    destruct k; simpl; auto.
Qed.
Lemma broadcasts_det : forall a b c d, broadcasts a b c -> broadcasts a b d -> c = d.
Proof. intros a b c d H1 H2. apply C28_broadcast_is_common_shape in H1, H2. congruence. Qed.
Theorem C83_bilinear_spec : forall i1 i2 w bias o, bilinear i1 i2 w bias = Some o <-> bilinear_shape i1 i2 w bias o.
Proof.
  intros i1 i2 w bias o. split.
  - intros H. unfold bilinear in H.
    destruct (Z.eqb_spec (zlen i1) (zlen i2)) as [L|]; [|discriminate]. destruct (Z.eqb_spec (zlen w) 3) as [W|]; [|discriminate].
    cbn [obind guard] in H. destruct (zlen_3 w W) as (x & y & z & ->).
    change (pyidx [x; y; z] 1) with (Some y) in H. change (pyidx [x; y; z] 2) with (Some z) in H. change (pyidx [x; y; z] 0) with (Some x) in H.
    destruct (snoc_case i1) as [->|(a & u & ->)]; [discriminate|].
    destruct (snoc_case i2) as [->|(b & v & ->)]; [rewrite zlen_app in L; change (zlen [u]) with 1 in L; change (zlen (@nil Z)) with 0 in L; pose proof (zlen_nonneg _ a); lia|].
    rewrite !pyidx_len in H. cbn [obind] in H. destruct (Z.eqb_spec u y); [subst|discriminate]. cbn [obind guard] in H.
    destruct (Z.eqb_spec v z); [subst|discriminate]. cbn [obind guard] in H.
    assert (La : length a = length b) by (rewrite !zlen_app in L; change (zlen [y]) with 1 in L; change (zlen [z]) with 1 in L; unfold zlen in L; lia).
    destruct (mapM _ _) as [pre|] eqn:M in H; [|discriminate]. apply same_prefix in M; auto. destruct M as [-> ->]. cbn [obind] in H.
    destruct bias as [bs|].
    + destruct (Z.eqb_spec (zlen bs) 1) as [B|]; [|discriminate]. destruct (zlen_1 bs B) as [b0 ->]. cbn [obind guard] in H.
      change (pyidx [b0] 0) with (Some b0) in H. cbn [obind] in H. destruct (Z.eqb_spec b0 x); [subst|discriminate]. cbn [obind guard] in H.
      apply C28_broadcast_is_common_shape in H. rewrite (broadcasts_det _ _ _ _ H (broadcasts_last b x)). constructor. auto.
    + injection H as <-. constructor. auto.
  - intros H. destruct H as [batch a b o bias B]. unfold bilinear.
    assert (L : zlen (batch ++ [a]) = zlen (batch ++ [b])) by (rewrite !zlen_app; reflexivity).
    rewrite L, Z.eqb_refl. change (zlen [o; a; b] =? 3) with true. cbn [obind guard].
    change (pyidx [o; a; b] 1) with (Some a). change (pyidx [o; a; b] 2) with (Some b). change (pyidx [o; a; b] 0) with (Some o).
    rewrite <- L at 1. rewrite !pyidx_len. cbn [obind]. rewrite !Z.eqb_refl. cbn [obind guard].
    rewrite <- L. rewrite (proj2 (same_prefix batch batch a b batch eq_refl)) by auto. cbn [obind].
    destruct B as [->| ->]; [reflexivity|]. change (zlen [o] =? 1) with true. cbn [obind guard]. change (pyidx [o] 0) with (Some o).
    cbn [obind]. rewrite Z.eqb_refl. cbn [obind guard]. apply C28_broadcast_is_common_shape, broadcasts_last.
Qed.

Lemma py_insert_at : forall l d v, d <= zlen l -> py_insert l d v = insert_at (insert_position (length l) d) v l.
Proof.
  intros l d v H. unfold py_insert, slice_to, slice_from, insert_at, insert_position.
  assert (E : clampb (zlen l) d = if d <? 0 then Z.max 0 (d + Z.of_nat (length l)) else d).
  { unfold clampb, zlen in *. destruct (Z.ltb_spec d 0); lia. }
  now rewrite E.
Qed.
Lemma insert_at_length : forall k v s, length (insert_at k v s) = S (length s).
Proof. intros. unfold insert_at. rewrite app_length. simpl. rewrite firstn_length, skipn_length. lia. Qed.
Lemma tri_expand_spec : forall dims s r, tri_expand s dims = Some r <-> with_ones (zlen s) s dims r.
Proof.
  intros dims s r. unfold tri_expand.
  assert (G : forall dims l, zlen s <= zlen l ->
    (foldM (fun l d => assert d <=? zlen s; Some (py_insert l d 1)) dims l = Some r <-> with_ones (zlen s) l dims r)).
  { clear dims. induction dims as [|d ds IH]; intros l L; cbn [foldM].
    - split; [intros [= ->]; constructor|intros H; inversion H; subst; reflexivity].
    - destruct (Z.leb_spec d (zlen s)) as [D|D]; cbn [guard obind].
      + rewrite py_insert_at by lia. rewrite IH by (unfold zlen in *; rewrite insert_at_length; lia). split.
        * intros H. constructor; auto.
        * intros H. inversion H; subst. auto.
      + split; [discriminate|]. intros H. inversion H; subst. lia. }
  apply G. lia.
Qed.
Lemma denotes_dec : forall r d k, (k < r)%nat -> ((d =? Z.of_nat k) || (d =? Z.of_nat k - Z.of_nat r) = true <-> denotes r d k).
Proof. intros r d k H. rewrite orb_true_iff, !Z.eqb_eq. unfold denotes. tauto. Qed.
Lemma pyset_bool : forall (bs : list bool) d v, 
  (exists k, denotes (length bs) d k /\ pyset bs d v = Some (set_nth k v bs)) \/
  ((forall k, ~ denotes (length bs) d k) /\ pyset bs d v = None).
Proof.
  intros bs d v. unfold pyset, denotes, zlen.
  destruct (Z.ltb_spec d 0) as [N|N].
  - destruct (Z.ltb_spec (d + Z.of_nat (length bs)) 0); simpl.
    + right. split; auto. intros k H1. lia.
    + destruct (Z.leb_spec (Z.of_nat (length bs)) (d + Z.of_nat (length bs))); [lia|]. left. eexists. split; [|reflexivity]. lia.
  - destruct (Z.ltb_spec d 0); [lia|]. simpl. destruct (Z.leb_spec (Z.of_nat (length bs)) d).
    + right. split; auto. intros k H1. lia.
    + left. eexists. split; [|reflexivity]. lia.
Qed.
Lemma set_nth_get : forall A (l : list A) i v k, nth_error (set_nth i v l) k =
  if Nat.eqb i k then option_map (fun _ => v) (nth_error l k) else nth_error l k.
Proof. induction l as [|x l IH]; intros [|i] v [|k]; simpl; auto. now destruct (Nat.eqb i k). Qed.
Lemma set_nth_len : forall A (l : list A) i v, length (set_nth i v l) = length l.
Proof. induction l as [|x l IH]; intros [|i] v; simpl; auto. Qed.
Lemma mark_spec : forall dims (bs bs' : list bool),
  foldM (fun bs d => pyset bs d true) dims bs = Some bs' <->
  Forall (fun d => exists k, denotes (length bs) d k) dims /\ length bs' = length bs /\
  forall k, (k < length bs)%nat -> nth_error bs' k = option_map (fun b => summed (length bs) dims k || b) (nth_error bs k).
Proof.
  induction dims as [|d ds IH]; intros bs bs'; cbn [foldM].
  - split.
    + intros [= ->]. repeat split; auto. intros k _. simpl. now destruct (nth_error bs' k).
    + intros (_ & L & H). f_equal. apply nth_error_ext'. split; auto. intros i Hi. rewrite H by lia. simpl. now destruct (nth_error bs i).
  - destruct (pyset_bool bs d true) as [(k & D & ->)|[N ->]]; cbn [obind].
    + rewrite IH, set_nth_len.
      assert (Q : forall i, (i < length bs)%nat ->
        option_map (fun b => summed (length bs) ds i || b) (nth_error (set_nth k true bs) i) =
        option_map (fun b => summed (length bs) (d :: ds) i || b) (nth_error bs i)).
      { intros i Hi. rewrite set_nth_get. unfold summed at 2. cbn [existsb]. fold (summed (length bs) ds i).
        destruct (nth_error bs i) as [b|]; [|now destruct (k =? i)%nat].
        destruct (Nat.eqb_spec k i) as [->|NE]; simpl.
        - rewrite (proj2 (denotes_dec _ _ _ Hi) D). simpl. now rewrite orb_true_r.
        - destruct ((d =? Z.of_nat i) || (d =? Z.of_nat i - Z.of_nat (length bs))) eqn:E; [|reflexivity].
          apply denotes_dec in E; auto. exfalso. apply NE. eapply denotes_inj; eauto. }
      split.
      * intros (F & L & H). split; [constructor; eauto|]. split; auto. intros i Hi. rewrite H, Q; auto.
      * intros (F & L & H). inversion F; subst. split; auto. split; auto. intros i Hi. rewrite Q; auto.
    + split; [discriminate|]. intros (F & _). inversion F as [|? ? (k & Hk) _]; subst. exfalso. eapply N; eauto.
Qed.
Lemma reduce_drop : forall s k, (k < length s)%nat -> reduce_along_dim s (Z.of_nat k) false = Some (drop_at k s).
Proof.
  intros s k H. assert (Hs : s <> []) by (intros ->; simpl in H; lia).
  change (reduce_along_dim s (Z.of_nat k) false) with (argmax s (Some (Z.of_nat k)) false). rewrite C36_argmax_is_a_reduction by auto.
  apply C36_dropped_dims; [auto|discriminate|]. exists [k]. split; [constructor; [unfold denotes; lia|constructor]|].
  rewrite <- (keep_drop s 0 k H). unfold keep_axes. apply keep_ext. intros i Hi. simpl. now rewrite orb_false_r.
Qed.
Lemma rev_range : forall m, rev (zrange 0 (Z.of_nat (S m))) = Z.of_nat m :: rev (zrange 0 (Z.of_nat m)).
Proof.
  intros m. unfold zrange. rewrite !Z.sub_0_r, !Nat2Z.id, seq_S, map_app, rev_app_distr. simpl. f_equal. 
Qed.
Lemma keep_axes_app : forall p a b k, keep_axes_from k p (a ++ b) = keep_axes_from k p a ++ keep_axes_from (k + length a) p b.
Proof.
  induction a as [|x a IH]; intros b k; simpl.
  - now rewrite Nat.add_0_r.
  - rewrite IH. replace (k + S (length a))%nat with (S k + length a)%nat by lia. destruct (p k); reflexivity.
Qed.
Lemma drop_marked : forall (out : list Z) (bs : list bool), length bs = length out ->
  foldM (fun o i => do b <- pyidx bs i; if b : bool then reduce_along_dim o i false else Some o) (rev (zrange 0 (zlen out))) out =
  Some (keep_axes (fun k => match nth_error bs k with Some b => negb b | None => true end) out).
Proof.
  intros out bs L. set (p := fun k => match nth_error bs k with Some b => negb b | None => true end).
  assert (G : forall m tl, (m <= length out)%nat ->
    foldM (fun o i => do b <- pyidx bs i; if b : bool then reduce_along_dim o i false else Some o) (rev (zrange 0 (Z.of_nat m))) (firstn m out ++ tl)
    = Some (keep_axes p (firstn m out) ++ tl)).
  { induction m as [|m IH]; intros tl Hm; [reflexivity|]. rewrite rev_range. cbn [foldM]. rewrite pyidx_nat.
    destruct (nth_error out m) as [x|] eqn:X; [|apply nth_error_None in X; lia].
    assert (F : firstn (S m) out = firstn m out ++ [x]).
    { clear - X. revert m X. induction out; intros [|m] X; simpl in *; try discriminate; [injection X as ->; reflexivity|]. f_equal; auto. }
    destruct (nth_error bs m) as [b|] eqn:B; [|apply nth_error_None in B; lia]. cbn [obind].
    assert (LF : length (firstn m out) = m) by (apply firstn_length_le; lia).
    assert (KA : keep_axes p (firstn (S m) out) = keep_axes p (firstn m out) ++ (if b then [] else [x])).
    { rewrite F. unfold keep_axes. rewrite keep_axes_app. f_equal. simpl. rewrite LF. unfold p. rewrite B. now destruct b. }
    rewrite KA. rewrite F. destruct b.
    - rewrite reduce_drop by (rewrite !app_length, LF; simpl; lia). cbn [obind]. rewrite app_nil_r.
      assert (DD : drop_at m ((firstn m out ++ [x]) ++ tl) = firstn m out ++ tl).
      { unfold drop_at. rewrite <- app_assoc. f_equal.
        - rewrite firstn_app, LF, Nat.sub_diag. simpl. rewrite app_nil_r. apply firstn_all2. lia.
        - rewrite skipn_app, LF. rewrite skipn_all2 by lia. replace (S m - m)%nat with 1%nat by lia. reflexivity. }
      rewrite DD. apply IH. lia.
    - cbn [obind]. rewrite <- !app_assoc. apply (IH ([x] ++ tl)). lia. }
  specialize (G (length out) [] ltac:(lia)). rewrite firstn_all, !app_nil_r in G. exact G.
Qed.
Lemma three_spec : forall a b c o, broadcast_three a b c = Some o <-> is_size3 a b c o.
Proof.
  intros a b c o. unfold broadcast_three, is_size3. split.
  - destruct (broadcast a b) as [ab|] eqn:E; [|discriminate]. cbn [obind]. intros H. exists ab.
    split; now apply C28_broadcast_is_common_shape.
  - intros (ab & H1 & H2). apply C28_broadcast_is_common_shape in H1, H2. rewrite H1. exact H2.
Qed.
Theorem C83_trilinear_spec : forall i1 i2 i3 e1 e2 e3 sumdim unroll out,
  trilinear i1 i2 i3 e1 e2 e3 sumdim unroll = Some out <->
  0 <= unroll < zlen i1 + zlen e1 /\ trilinear_shape i1 i2 i3 e1 e2 e3 sumdim out.
Proof.
  intros i1 i2 i3 e1 e2 e3 sumdim unroll out.
  assert (P : forall o bs, Forall (fun d => exists k, denotes (length (map (fun _ : Z => false) o)) d k) sumdim ->
    length bs = length (map (fun _ : Z => false) o) ->
    (forall k, (k < length (map (fun _ : Z => false) o))%nat -> nth_error bs k =
      option_map (fun b => summed (length (map (fun _ : Z => false) o)) sumdim k || b) (nth_error (map (fun _ : Z => false) o) k)) ->
    keep_axes (fun k => match nth_error bs k with Some b => negb b | None => true end) o =
    keep_axes (fun k => negb (summed (length o) sumdim k)) o).
  { intros o bs F L H. rewrite map_length in *. unfold keep_axes. apply keep_ext. intros i Hi. simpl. rewrite H by auto.
    rewrite nth_error_map. destruct (nth_error o i) eqn:E; [|apply nth_error_None in E; lia]. simpl. now rewrite orb_false_r. }
  unfold trilinear, trilinear_shape. split.
  - intros H. destruct (Z.leb_spec 0 unroll) as [U1|]; [|discriminate]. destruct (Z.ltb_spec unroll (zlen i1 + zlen e1)) as [U2|]; [|discriminate].
    cbn [andb guard obind] in H.
    destruct (tri_expand i1 e1) as [a|] eqn:A; [|discriminate]. destruct (tri_expand i2 e2) as [b|] eqn:B; [|discriminate].
    destruct (tri_expand i3 e3) as [c|] eqn:C; [|discriminate]. cbn [obind] in H.
    destruct (Z.eqb_spec (zlen a) (zlen b)) as [L1|]; [|discriminate]. destruct (Z.eqb_spec (zlen b) (zlen c)) as [L2|]; [|discriminate].
    cbn [andb guard obind] in H. destruct (broadcast_three a b c) as [o|] eqn:O; [|discriminate]. cbn [obind] in H.
    destruct (foldM (fun bs d => pyset bs d true) sumdim (map (fun _ => false) o)) as [bs|] eqn:M; [|discriminate]. cbn [obind] in H.
    apply mark_spec in M. destruct M as (F & L & N).
    rewrite drop_marked in H by (rewrite L; apply map_length). injection H as <-.
    split; [lia|]. apply tri_expand_spec in A, B, C. exists a, b, c, o. rewrite three_spec in O.
    assert (L1' : length a = length b) by (unfold zlen in L1; lia). assert (L2' : length b = length c) by (unfold zlen in L2; lia).
    rewrite (P o bs F L N). rewrite map_length in F. auto 10.
  - intros ([U1 U2] & a & b & c & o & A & B & C & L1 & L2 & O & F & ->).
    destruct (Z.leb_spec 0 unroll); [|lia]. destruct (Z.ltb_spec unroll (zlen i1 + zlen e1)); [|lia]. cbn [andb guard obind].
    apply tri_expand_spec in A, B, C. rewrite A, B, C. cbn [obind]. unfold zlen at 1 2 3 4. rewrite L1, L2, !Z.eqb_refl. cbn [andb guard obind].
    apply three_spec in O. rewrite O. cbn [obind].
    set (bs := map (summed (length o) sumdim) (seq 0 (length o))).
    assert (M : foldM (fun bs d => pyset bs d true) sumdim (map (fun _ => false) o) = Some bs).
    { apply mark_spec. rewrite map_length. split; auto. unfold bs. rewrite map_length, seq_length. split; auto. intros k Hk.
      rewrite !nth_error_map. rewrite (nth_error_nth' (seq 0 (length o)) 0%nat) by (rewrite seq_length; auto). rewrite seq_nth by auto.
      destruct (nth_error o k) eqn:E; [|apply nth_error_None in E; lia]. simpl. now rewrite orb_false_r. }
    rewrite M. cbn [obind]. rewrite drop_marked by (unfold bs; rewrite map_length, seq_length; auto).
    apply mark_spec in M. destruct M as (F' & L & N). now rewrite (P o bs F' L N).
Qed.

(** ** Attention *)

Lemma set_last : forall (l : list Z) e v, pyset (l ++ [e]) (-1) v = Some (l ++ [v]).
Proof.
  intros l e v. unfold pyset. rewrite zlen_app. change (zlen [e]) with 1. pose proof (zlen_nonneg _ l).
  destruct (Z.ltb_spec (-1) 0); [|lia]. destruct (Z.ltb_spec (-1 + (zlen l + 1)) 0); [lia|]. destruct (Z.leb_spec (zlen l + 1) (-1 + (zlen l + 1))); [lia|].
  simpl. f_equal. replace (Z.to_nat (-1 + (zlen l + 1))) with (length l) by (unfold zlen; lia). clear. induction l; simpl; f_equal; auto.
Qed.
Theorem C83_attention_exact : forall q0 mid e k0 kr v0 vm ev out,
  sdpa (q0 :: mid ++ [e]) (k0 :: kr) (v0 :: vm ++ [ev]) = Some out <->
  exists b, is_size3 [q0] [k0] [v0] [b] /\ out = b :: mid ++ [ev].
Proof.
  intros. unfold sdpa.
  change (v0 :: vm ++ [ev]) with ((v0 :: vm) ++ [ev]). rewrite pyidx_last. cbn [obind].
  change (q0 :: mid ++ [e]) with ((q0 :: mid) ++ [e]). rewrite set_last. cbn [obind].
  change (pyidx ((q0 :: mid) ++ [ev]) 0) with (Some q0). change (pyidx (k0 :: kr) 0) with (Some k0).
  change (pyidx ((v0 :: vm) ++ [ev]) 0) with (Some v0). cbn [obind]. split.
  - destruct (broadcast_three [q0] [k0] [v0]) as [b|] eqn:B; [|discriminate]. cbn [obind]. apply three_spec in B.
    assert (L : length b = 1%nat) by (destruct B as (ab & [L1 _] & [L2 _]); simpl in *; lia).
    destruct b as [|b [|]]; try discriminate. change (pyidx [b] 0) with (Some b). cbn [obind].
    intros H. exists b. split; auto. unfold pyset in H. destruct (Z.leb_spec (zlen ((q0 :: mid) ++ [ev])) 0) as [L0|].
    + rewrite zlen_app, zlen_cons in L0. pose proof (zlen_nonneg _ mid). change (zlen [ev]) with 1 in L0. lia.
    + simpl in H. now injection H.
  - intros (b & B & ->). apply three_spec in B. rewrite B. cbn [obind]. change (pyidx [b] 0) with (Some b). cbn [obind].
    unfold pyset. destruct (Z.leb_spec (zlen ((q0 :: mid) ++ [ev])) 0) as [L0|].
    + rewrite zlen_app, zlen_cons in L0. pose proof (zlen_nonneg _ mid). change (zlen [ev]) with 1 in L0. lia.
    + reflexivity.
Qed.
Lemma bcast_cons_same : forall x y z m, bcast1 x y z -> broadcasts (x :: m) (y :: m) (z :: m).
Proof.
  intros x y z m H. split; [simpl; lia|]. intros k Hk. unfold rdim. simpl rev.
  destruct (Nat.lt_ge_cases k (length m)) as [L|L].
  - rewrite !app_nth1 by (rewrite rev_length; auto). unfold bcast1. auto.
  - rewrite !app_nth2 by (rewrite rev_length; auto). rewrite rev_length. simpl in Hk. replace (k - length m)%nat with 0%nat by lia. exact H.
Qed.
Lemma bcast_single : forall x y z, broadcasts [x] [y] [z] -> bcast1 x y z.
Proof. intros x y z [_ H]. exact (H 0%nat ltac:(simpl; lia)). Qed.
Lemma size3_cons : forall x y z w m, is_size3 [x] [y] [z] [w] -> is_size3 (x :: m) (y :: m) (z :: m) (w :: m).
Proof.
  intros x y z w m (ab & H1 & H2). assert (L : length ab = 1%nat) by (destruct H1 as [L _]; simpl in L; lia).
  destruct ab as [|u [|]]; try discriminate. apply bcast_single in H1, H2. exists (u :: m). split; now apply bcast_cons_same.
Qed.
(** With at least one batch axis, and the other batch axes equal, the result is the documented one. *)
Theorem C83_attention_partial : forall q0 k0 v0 b m L S E Ev,
  is_size3 [q0] [k0] [v0] [b] ->
  sdpa (q0 :: m ++ [L; E]) (k0 :: m ++ [S; E]) (v0 :: m ++ [S; Ev]) = Some (b :: m ++ [L; Ev]) /\
  attention_shape (q0 :: m ++ [L; E]) (k0 :: m ++ [S; E]) (v0 :: m ++ [S; Ev]) (b :: m ++ [L; Ev]).
Proof.
  intros q0 k0 v0 b m L S E Ev H. split.
  - pose proof (C83_attention_exact q0 (m ++ [L]) E k0 (m ++ [S; E]) v0 (m ++ [S]) Ev (b :: m ++ [L; Ev])) as X.
    rewrite <- !app_assoc in X. cbn [app] in X. apply X. exists b. split; auto.
  - exists (q0 :: m), (k0 :: m), (v0 :: m), (b :: m), L, S, E, Ev. repeat (split; [reflexivity|]). split; [now apply size3_cons|reflexivity].
Qed.
(** Other batch axes are not broadcast; without a batch axis the lengths of query and key are
    broadcast together; the embedding sizes are not compared. *)
Theorem C83_attention_second_batch_axis_refuted :
  sdpa [2; 1; 8; 4] [2; 3; 8; 4] [2; 3; 8; 5] = Some [2; 1; 8; 5] /\
  attention_shape [2; 1; 8; 4] [2; 3; 8; 4] [2; 3; 8; 5] [2; 3; 8; 5].
Proof.
  split; [reflexivity|]. exists [2; 1], [2; 3], [2; 3], [2; 3], 8, 8, 4, 5. repeat (split; [reflexivity|]).
  split; [|reflexivity]. apply three_spec. reflexivity.
Qed.
Theorem C83_attention_without_batch_refuted :
  (sdpa [1; 4] [8; 4] [8; 5] = Some [8; 5] /\ attention_shape [1; 4] [8; 4] [8; 5] [1; 5]) /\
  (sdpa [3; 4] [8; 4] [8; 5] = None /\ attention_shape [3; 4] [8; 4] [8; 5] [3; 5]).
Proof.
  split; (split; [reflexivity|]).
  - exists [], [], [], [], 1, 8, 4, 5. repeat (split; [reflexivity|]). split; [|reflexivity]. apply three_spec. reflexivity.
  - exists [], [], [], [], 3, 8, 4, 5. repeat (split; [reflexivity|]). split; [|reflexivity]. apply three_spec. reflexivity.
Qed.
Theorem C83_attention_sizes_unchecked_refuted : exists q k v out, sdpa q k v = Some out /\ forall o, ~ attention_shape q k v o.
Proof.
  exists [2; 8; 4], [2; 8; 9], [2; 8; 5], [2; 8; 5]. split; [reflexivity|].
  intros o (bq & bk & bv & b & L & S & E & Ev & Hq & Hk & _).
  change [2; 8; 4] with ([2; 8] ++ [4]) in Hq. change [2; 8; 9] with ([2; 8] ++ [9]) in Hk.
  replace (bq ++ [L; E]) with ((bq ++ [L]) ++ [E]) in Hq by now rewrite <- app_assoc.
  replace (bk ++ [S; E]) with ((bk ++ [S]) ++ [E]) in Hk by now rewrite <- app_assoc.
  apply app_inj_tail in Hq, Hk. lia.
Qed.

(** ** Lookups *)

Theorem C83_embedding_spec : forall w i o, embedding w i = Some o <-> exists v d, w = [v; d] /\ o = i ++ [d].
Proof.
  intros w i o. unfold embedding. split.
  - destruct (Z.eqb_spec (zlen w) 2) as [W|]; [|discriminate]. cbn [guard obind]. destruct (zlen_2 w W) as (v & d & ->).
    intros H. exists v, d. split; auto. destruct (Z.eqb_spec (zlen i) 1) as [L|].
    + destruct (zlen_1 i L) as [n ->]. rewrite (C46_index_select_sets_the_axis [v; d] 0 [n] 0) in H by (unfold denotes; simpl; lia).
      cbn in H. injection H as <-. now rewrite Z.mul_1_r.
    + rewrite unary_spec in H. cbn [obind] in H. change (pyidx [v; d] 1) with (Some d) in H. now injection H.
  - intros (v & d & -> & ->). change (zlen [v; d] =? 2) with true. cbn [guard obind]. destruct (Z.eqb_spec (zlen i) 1) as [L|].
    + destruct (zlen_1 i L) as [n ->]. rewrite (C46_index_select_sets_the_axis [v; d] 0 [n] 0) by (unfold denotes; simpl; lia).
      cbn. now rewrite Z.mul_1_r.
    + rewrite unary_spec. reflexivity.
Qed.
(** [offsets] starts a bag each, except that with [include_last_offset] the last one only ends one. *)
Theorem C83_embedding_bag_spec : forall w i off last mode psw pad bag o2b size mx,
  embedding_bag w i off last mode psw pad = Some (bag, o2b, size, mx) <->
  exists v d n k, w = [v; d] /\ i = [n] /\ off = [k] /\ bag = [if last then k - 1 else k; d] /\ size = [k] /\
    o2b = (if (mode =? 1) || negb (psw || pad) then [0] else [n]) /\ mx = (if mode =? 2 then bag else [k]).
Proof.
  intros w i off last mode psw pad bag o2b size mx. unfold embedding_bag. split.
  - destruct (Z.eqb_spec (zlen w) 2) as [W|]; [|discriminate]. destruct (Z.eqb_spec (zlen i) 1) as [Li|]; [|discriminate].
    destruct (Z.eqb_spec (zlen off) 1) as [Lo|]; [|discriminate]. cbn [guard obind].
    destruct (zlen_2 w W) as (v & d & ->), (zlen_1 i Li) as [n ->], (zlen_1 off Lo) as [k ->].
    change (pyidx [k] 0) with (Some k). change (pyidx [v; d] 1) with (Some d). cbn [obind]. rewrite !unary_spec.
    intros H. exists v, d, n, k. destruct (mode =? 1), (mode =? 2), psw, pad, last; cbn in H |- *; injection H as <- <- <- <-; auto 10.
  - intros (v & d & n & k & -> & -> & -> & -> & -> & -> & ->). change (zlen [v; d] =? 2) with true. change (zlen [n] =? 1) with true.
    change (zlen [k] =? 1) with true. cbn [guard obind]. change (pyidx [k] 0) with (Some k). change (pyidx [v; d] 1) with (Some d). cbn [obind].
    rewrite !unary_spec. destruct (mode =? 1), (mode =? 2), psw, pad, last; reflexivity.
Qed.
Theorem C83_embedding_bag_no_offsets_refuted : exists bag o2b size mx,
  embedding_bag [10; 3] [4] [0] true 0 false false = Some (bag, o2b, size, mx) /\ In (-1) bag.
Proof. exists [-1; 3], [0], [0], [0]. split; [reflexivity|simpl; auto]. Qed.
Theorem C83_one_hot_spec : forall self n o, one_hot self n = Some o <-> n <> -1 /\ o = self ++ [n].
Proof.
  intros self n o. unfold one_hot. destruct (Z.eqb_spec n (-1)); cbn; split; try discriminate; try tauto.
  - intros [= <-]. auto.
  - intros [_ ->]. auto.
Qed.

(** ** Determinants, cross product and others *)

Inductive square : list Z -> list Z -> Prop :=
| sq_one : forall n, square [n; n] []
| sq_batch : forall b n, square [b; n; n] [b].
Lemma det_shape : forall a o, linalg_det a = Some o <-> square a o.
Proof.
  intros a o. unfold linalg_det. split.
  - destruct (Z.eqb_spec (zlen a) 2) as [L|L].
    + destruct (zlen_2 a L) as (x & y & ->). cbn [orb guard obind]. change (pyidx [x; y] (-1)) with (Some y). change (pyidx [x; y] (-2)) with (Some x).
      cbn [obind]. destruct (Z.eqb_spec y x); [subst|discriminate]. intros [= <-]. constructor.
    + destruct (Z.eqb_spec (zlen a) 3) as [L3|]; [|discriminate]. destruct (zlen_3 a L3) as (b & x & y & ->). cbn [orb guard obind].
      change (pyidx [b; x; y] (-1)) with (Some y). change (pyidx [b; x; y] (-2)) with (Some x).
      cbn [obind]. destruct (Z.eqb_spec y x); [subst|discriminate]. intros [= <-]. constructor.
  - intros [n|b n].
    + change (zlen [n; n] =? 2) with true. cbn [orb guard obind]. change (pyidx [n; n] (-1)) with (Some n). change (pyidx [n; n] (-2)) with (Some n).
      cbn [obind]. now rewrite Z.eqb_refl.
    + change (zlen [b; n; n] =? 3) with true. cbn [orb guard obind]. change (pyidx [b; n; n] (-1)) with (Some n). change (pyidx [b; n; n] (-2)) with (Some n).
      cbn. now rewrite Z.eqb_refl.
Qed.
Theorem C83_det_spec_partial : forall a o, linalg_det a = Some o <-> square a o.
Proof. exact det_shape. Qed.
Theorem C83_det_more_batches_refuted : forall b1 b2 n, linalg_det [b1; b2; n; n] = None.
Proof. reflexivity. Qed.
Theorem C83_det_and_factors : forall a d lu p, linalg_det3 a = Some (d, lu, p) <-> square a d /\ lu = a /\ p = removelast a.
Proof.
  intros a d lu p. unfold linalg_det3. split.
  - destruct (linalg_det a) as [o|] eqn:E; [|discriminate]. cbn [obind]. intros [= <- <- <-]. apply det_shape in E. split; auto. split; auto.
    now destruct E.
  - intros (H & -> & ->). rewrite (proj2 (det_shape a d) H). cbn [obind]. now destruct H.
Qed.
Theorem C83_slogdet_spec : forall a s l, slogdet a = Some (s, l) <-> square a s /\ l = s.
Proof.
  intros a s l. assert (E : slogdet a = do d <- linalg_det a; Some (d, d)).
  { unfold slogdet, linalg_det. destruct (_ || _); [|reflexivity]. cbn [guard obind]. destruct (pyidx a (-1)); [|reflexivity].
    destruct (pyidx a (-2)); [|reflexivity]. cbn [obind]. destruct (_ =? _); [|reflexivity]. cbn [guard obind]. now destruct (zlen a =? 3). }
  rewrite E. split.
  - destruct (linalg_det a) as [o|] eqn:D; [|discriminate]. cbn [obind]. intros [= <- <-]. apply det_shape in D. auto.
  - intros [H ->]. now rewrite (proj2 (det_shape a s) H).
Qed.
Lemma cross_checks : forall a b, length a = length b -> (exists c, broadcasts a b c) ->
  exists u, mapM (fun i => do x <- pyidx a i; do y <- pyidx b i; assert (x =? y) || (x =? 1) || (y =? 1); Some tt) (zrange 0 (zlen a)) = Some u.
Proof.
  intros a b L (c & Lc & H). exists (repeat tt (length a)). apply mapM_range_nth; [apply zlen_nonneg|]. unfold zlen. rewrite repeat_length. split; auto.
  intros k Hk. rewrite !pyidx_nat. destruct (nth_error a k) as [x|] eqn:X; [|apply nth_error_None in X; lia].
  destruct (nth_error b k) as [y|] eqn:Y; [|apply nth_error_None in Y; lia]. cbn [obind].
  rewrite nth_error_repeat by auto. specialize (H (length a - 1 - k)%nat ltac:(lia)).
  assert (Rx : rdim a (length a - 1 - k) = x).
  { pose proof (rdim_nth a (length a - 1 - k) ltac:(lia)) as R. replace (length a - 1 - (length a - 1 - k))%nat with k in R by lia. congruence. }
  assert (Ry : rdim b (length a - 1 - k) = y).
  { pose proof (rdim_nth b (length a - 1 - k) ltac:(lia)) as R. replace (length b - 1 - (length a - 1 - k))%nat with k in R by lia. congruence. }
  rewrite Rx, Ry in H. unfold bcast1 in H.
  assert (G : ((x =? y) || (x =? 1) || (y =? 1)) = true) by (rewrite !orb_true_iff, !Z.eqb_eq; lia). now rewrite G.
Qed.
Theorem C83_cross_spec : forall a b o, linalg_cross a b = Some o <-> length a = length b /\ broadcasts a b o.
Proof.
  intros a b o. unfold linalg_cross. split.
  - destruct (Z.eqb_spec (zlen a) (zlen b)) as [L|]; [|discriminate]. cbn [guard obind]. destruct (mapM _ _); [|discriminate]. cbn [obind].
    intros H. split; [unfold zlen in L; lia|now apply C28_broadcast_is_common_shape].
  - intros [L B]. unfold zlen at 1 2. rewrite L, Z.eqb_refl. cbn [guard obind]. destruct (cross_checks a b L (ex_intro _ o B)) as [u ->]. cbn [obind].
    now apply C28_broadcast_is_common_shape.
Qed.
(** The axis is never looked at, although it must have size 3. *)
Theorem C83_cross_axis_unchecked_refuted : linalg_cross [2; 5] [2; 5] = Some [2; 5].
Proof. reflexivity. Qed.
Theorem C83_trace_spec : forall s o, trace s = Some o <-> length s = 2%nat /\ o = [].
Proof.
  intros s o. unfold trace, zlen. destruct (Z.eqb_spec (Z.of_nat (length s)) 2); cbn; split; try discriminate; try (intros [= <-]; split; [lia|reflexivity]);
  intros [L ->]; [reflexivity|lia].
Qed.
Theorem C83_kthvalue_spec : forall s dim keep v i, s <> [] ->
  (kthvalue s dim keep = Some (v, i) <-> (exists k, denotes (length s) dim k /\ reduced keep [k] s v) /\ i = v).
Proof.
  intros s dim keep v i Hs. unfold kthvalue. rewrite C36_argmax_is_a_reduction by auto.
  assert (R : forall o, sum_mean_dim s (Some [dim]) keep = Some o <-> exists k, denotes (length s) dim k /\ reduced keep [k] s o).
  { intros o. destruct keep; cbn [reduced]; [rewrite C36_kept_dims by (auto; discriminate)|rewrite C36_dropped_dims by (auto; discriminate)]; split.
    - intros (ks & F & H). inversion F as [|? k ? ? D F']; subst. inversion F'; subst. eauto.
    - intros (k & D & H). exists [k]. auto.
    - intros (ks & F & H). inversion F as [|? k ? ? D F']; subst. inversion F'; subst. eauto.
    - intros (k & D & H). exists [k]. auto. }
  split.
  - destruct (sum_mean_dim s (Some [dim]) keep) as [o|]; [|discriminate]. cbn [obind]. intros [= <- <-]. split; [now apply R|reflexivity].
  - intros [H ->]. apply R in H. now rewrite H.
Qed.
Theorem C83_channel_shuffle_spec : forall s o, channel_shuffle s = Some o <-> (3 <= length s)%nat /\ o = s.
Proof.
  intros s o. unfold channel_shuffle, zlen. destruct (Z.leb_spec 3 (Z.of_nat (length s))); cbn; split; try discriminate; try (intros [= <-]; split; [lia|reflexivity]);
  intros [L ->]; [reflexivity|lia].
Qed.
Example C83_nonvacuous :
  linear [2; 3; 4] [5; 4] (Some [5]) = Some [2; 3; 5] /\ linear [4] [4] None = Some [] /\ linear [2; 4] [5; 3] None = None /\
  addmm [3] [2; 4] [4; 3] = Some [2; 3] /\ addbmm [1; 3] [5; 2; 4] [5; 4; 3] = Some [2; 3] /\
  bilinear [8; 2] [8; 3] [4; 2; 3] (Some [4]) = Some [8; 4] /\ bilinear [8; 2] [8; 3] [4; 2; 3] (Some [8]) = None /\
  trilinear [4; 5; 6] [4; 5; 6] [4; 5; 6] [1] [0] [0] [-1] 2 = Some [4; 4; 5] /\
  sdpa [3; 2; 16; 8] [3; 2; 8; 8] [3; 2; 8; 4] = Some [3; 2; 16; 4] /\
  embedding [10; 3] [4; 5] = Some [4; 5; 3] /\ embedding [10; 3] [4] = Some [4; 3] /\
  embedding_bag [10; 3] [4] [2] true 2 false true = Some ([1; 3], [4], [2], [1; 3]) /\
  linalg_cross [1; 2; 3] [4; 1; 3] = Some [4; 2; 3] /\ kthvalue [2; 4; 3] 1 true = Some ([2; 1; 3], [2; 1; 3]).
Proof. repeat split. Qed.

Print Assumptions C83_linear_of_a_matrix.
Print Assumptions C83_trilinear_spec.
Print Assumptions C83_bilinear_spec.
Print Assumptions C83_attention_exact.
