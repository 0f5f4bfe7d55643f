(** Property C34: concatenation and stacking. *)
From Coq Require Import ZArith Bool Lia List.
From Verif Require Import Prelude ShapeCoreModel ShapeCoreSpec ShapeCoreProofs ShapeBroadcastProps
  ShapeViewProps ShapeMatProps ShapeDimProps.
Import ListNotations.
Open Scope Z_scope.

(** The inputs that count: not one-dimensional and empty. *)
Definition counted (ts : list (list Z)) : list (list Z) :=
  filter (fun t => if list_eq_dec Z.eq_dec t [0] then false else true) ts.
(** [out] is the concatenation of [kept] along [dim]. *)
Definition cat_of (kept : list (list Z)) (dim : Z) (out : list Z) : Prop :=
  exists k, Forall (fun t => denotes (length t) dim k /\ agree_except k t out) kept /\
    nth_error out k = Some (sumZ (map (fun t => nth k t 0) kept)).

Lemma skip_spec : forall t, should_skip t = if list_eq_dec Z.eq_dec t [0] then true else false.
Proof.
  intros t. unfold should_skip. rewrite numel_prod. destruct (list_eq_dec Z.eq_dec t [0]) as [->|N]; [reflexivity|].
  destruct (Z.eqb_spec (zlen t) 1) as [L|L]; [|apply andb_false_r].
  destruct (zlen_1 t L) as [x ->]. simpl. destruct (Z.eqb_spec (x * 1) 0); auto. exfalso. apply N. f_equal. lia.
Qed.
Lemma counted_skip : forall ts, counted ts = filter (fun t => negb (should_skip t)) ts.
Proof. intros. apply filter_ext. intros t. rewrite skip_spec. now destruct (list_eq_dec Z.eq_dec t [0]). Qed.
Lemma cat_wrap_spec : forall ts dim, cat_wrap_dim dim ts =
  match counted ts with [] => Some dim | t :: _ => wrap_dim dim (zlen t) end.
Proof.
  intros ts dim. rewrite counted_skip. unfold cat_wrap_dim.
  assert (Z1 : forall t : list Z, (if zlen t =? 1 then do x <- pyidx t 0; Some (x =? 0) else Some false) = Some (should_skip t)).
  { intros t. rewrite skip_spec. destruct (Z.eqb_spec (zlen t) 1) as [L|L].
    - destruct (zlen_1 t L) as [x ->]. pys. f_equal. destruct (Z.eqb_spec x 0) as [->|N]; [reflexivity|].
      destruct (list_eq_dec Z.eq_dec [x] [0]); congruence.
    - destruct (list_eq_dec Z.eq_dec t [0]) as [->|]; auto. exfalso. now apply L. }
  assert (G1 : forall ts d, foldM (fun out t => do z <- (if zlen t =? 1 then do x <- pyidx t 0; Some (x =? 0) else Some false);
      if negb z then match out with None => do d <- wrap_dim dim (zlen t); Some (Some d) | Some d => Some (Some d) end
      else Some out) ts (Some d) = Some (Some d)).
  { induction ts0 as [|t ts0 IH]; intros d; cbn [foldM]; auto. rewrite Z1. cbn [obind]. destruct (should_skip t); cbn [negb obind]; apply IH. }
  induction ts as [|t ts IH]; auto. cbn [foldM filter]. rewrite Z1. cbn [obind].
  destruct (should_skip t); cbn [negb obind]; auto.
  destruct (wrap_dim dim (zlen t)) as [d|]; cbn [obind]; auto. now rewrite G1.
Qed.
Lemma last_indep : forall A (l : list A) x d d', last (x :: l) d = last (x :: l) d'.
Proof. induction l as [|y l IH]; intros; auto. change (last (y :: l) d = last (y :: l) d'). apply IH. Qed.
Lemma base_spec : forall ts (acc : option (list Z)),
  fold_left (fun acc t => if negb (should_skip t) then Some t else acc) ts acc =
  match counted ts with [] => acc | t :: r => Some (last (t :: r) t) end.
Proof.
  intros ts. rewrite counted_skip. induction ts as [|t ts IH]; intros acc; auto. cbn [fold_left filter]. rewrite IH.
  destruct (negb (should_skip t)); auto. destruct (filter _ ts) as [|u r]; auto.
  change (last (t :: u :: r) t) with (last (u :: r) t). f_equal. apply last_indep.
Qed.
Lemma check_cat_spec : forall a b k, check_cat a b (Z.of_nat k) = Some tt <-> agree_except k a b.
Proof.
  intros a b k. unfold check_cat, agree_except. destruct (Z.eqb_spec (zlen a) (zlen b)) as [L|L]; cbn [negb].
  - assert (L' : length a = length b) by (unfold zlen in L; lia).
    assert (M : mapM (fun i => if negb (i =? Z.of_nat k) then do x <- pyidx a i; do y <- pyidx b i; Some (x =? y) else Some true)
        (zrange 0 (zlen a)) = Some (imap (fun i x => if (i =? k)%nat then true else x =? nth i b 0) 0 a)).
    { apply mapM_imap. intros i x Hx. rewrite !pyidx_nat, Hx. cbn [obind].
      assert (i < length b)%nat by (rewrite <- L'; apply nth_error_Some; congruence).
      rewrite (nth_error_nth' b 0) by auto. cbn [obind].
      destruct (Nat.eqb_spec i k), (Z.eqb_spec (Z.of_nat i) (Z.of_nat k)); try lia; reflexivity. }
    rewrite M. cbn [obind]. split.
    + intros G. split; auto. intros i Hi. destruct (forallb _ _) eqn:E; [|discriminate]. rewrite forallb_forall in E.
      destruct (Nat.lt_ge_cases i (length a)) as [Hl|Hl].
      * assert (A : nth_error (imap (fun i x => if (i =? k)%nat then true else x =? nth i b 0) 0 a) i = Some (nth i a 0 =? nth i b 0)).
        { rewrite imap_nth, (nth_error_nth' a 0) by auto. simpl. destruct (Nat.eqb_spec i k); [congruence|reflexivity]. }
        apply nth_error_In in A. apply E in A. apply Z.eqb_eq in A.
        rewrite (nth_error_nth' a 0), (nth_error_nth' b 0) by lia. congruence.
      * transitivity (@None Z); [|symmetry]; apply nth_error_None; lia.
    + intros [_ H]. replace (forallb _ _) with true; auto. symmetry. apply forallb_forall. intros x Hx.
      apply In_nth_error in Hx. destruct Hx as [i Hi]. rewrite imap_nth in Hi. destruct (nth_error a i) as [u|] eqn:E; [|discriminate].
      simpl in Hi. injection Hi as <-. destruct (Nat.eqb_spec i k); auto. specialize (H i n). rewrite E in H. symmetry in H.
      apply nth_error_nth with (d := 0) in H. rewrite H. apply Z.eqb_refl.
  - split; [discriminate|]. intros [L' _]. unfold zlen in L. lia.
Qed.
Lemma agree_refl : forall k a, agree_except k a a.
Proof. split; auto. Qed.
Lemma agree_sym : forall k a b, agree_except k a b -> agree_except k b a.
Proof. intros k a b [L H]. split; auto. intros. symmetry. auto. Qed.
Lemma agree_trans : forall k a b c, agree_except k a b -> agree_except k b c -> agree_except k a c.
Proof. intros k a b c [L H] [L' H']. split; [congruence|]. intros. rewrite H; auto. Qed.
Lemma set_nth_length : forall A k (v : A) l, length (set_nth k v l) = length l.
Proof. induction k; destruct l; simpl; auto. Qed.
Lemma set_nth_same : forall A k (v : A) l, (k < length l)%nat -> nth_error (set_nth k v l) k = Some v.
Proof. induction k; destruct l; simpl; intros; try lia; auto. apply IHk. lia. Qed.
Lemma set_nth_other : forall A k (v : A) l i, i <> k -> nth_error (set_nth k v l) i = nth_error l i.
Proof. induction k; destruct l; intros [|i] H; simpl; auto; congruence. Qed.
Lemma agree_set : forall k v a, agree_except k a (set_nth k v a).
Proof. split; [now rewrite set_nth_length|]. intros. now rewrite set_nth_other. Qed.
Lemma agree_set_eq : forall k v a out, agree_except k a out -> nth_error out k = Some v -> out = set_nth k v a.
Proof.
  intros k v a out [L H] N. apply nth_error_ext'. rewrite set_nth_length. split; auto. intros i Hi.
  destruct (Nat.eq_dec i k) as [->|Ne]; [rewrite set_nth_same; [auto|lia]|]. rewrite set_nth_other by auto. symmetry. auto.
Qed.
Lemma size_spec : forall base k ts acc n, (k < length base)%nat ->
  (foldM (fun acc t => if negb (should_skip t) then do _ <- check_cat base t (Z.of_nat k);
      do x <- pyidx t (Z.of_nat k); Some (acc + x) else Some acc) ts acc = Some n <->
   Forall (agree_except k base) (counted ts) /\ n = acc + sumZ (map (fun t => nth k t 0) (counted ts))).
Proof.
  intros base k ts acc n Hk. rewrite counted_skip. revert acc.
  induction ts as [|t ts IH]; intros acc; cbn [foldM filter].
  - simpl. split; [intros [= <-]; split; auto; lia|intros [_ ->]; f_equal; lia].
  - destruct (negb (should_skip t)); cbn [obind]; auto. destruct (check_cat base t (Z.of_nat k)) as [[]|] eqn:E; cbn [obind].
    + apply check_cat_spec in E. rewrite pyidx_nat, (nth_error_nth' t 0) by (destruct E; lia). cbn [obind].
      rewrite IH. cbn [map sumZ fold_right]. fold (sumZ (map (fun t => nth k t 0) (filter (fun t => negb (should_skip t)) ts))).
      split; intros [H1 H2]; split; try lia; auto. now inversion H1.
    + split; [discriminate|]. intros [H _]. inversion H as [|? ? H1]; subst. apply check_cat_spec in H1. congruence.
Qed.
Theorem C34_cat_spec : forall ts dim out, cat ts dim = Some out <->
  ts <> [] /\ Forall (fun t => t <> []) ts /\
  (if list_eq_dec (list_eq_dec Z.eq_dec) (counted ts) [] then out = [0] else cat_of (counted ts) dim out).
Proof.
  intros ts dim out. unfold cat. rewrite cat_wrap_spec, base_spec.
  assert (G : guard (forallb (fun t => negb (zlen t <=? 0)) ts) = Some tt <-> Forall (fun t : list Z => t <> []) ts).
  { unfold guard. rewrite Forall_forall. split.
    - destruct (forallb _ ts) eqn:E; [|discriminate]. intros _ t Ht. rewrite forallb_forall in E. specialize (E t Ht).
      intros ->. discriminate.
    - intros H. replace (forallb _ ts) with true; auto. symmetry. apply forallb_forall. intros t Ht. specialize (H t Ht).
      destruct t; [congruence|]. rewrite zlen_cons. pose proof (zlen_nonneg _ t). destruct (Z.leb_spec (1 + zlen t) 0); [lia|reflexivity]. }
  destruct (guard _) as [[]|]; cbn [obind].
  2: { split; [discriminate|]. intros (_ & H & _). apply G in H. discriminate. }
  assert (F : Forall (fun t : list Z => t <> []) ts) by now apply G. clear G.
  assert (NE : ts <> [] <-> (zlen ts <=? 0) = false).
  { destruct ts; [split; [congruence|discriminate]|]. rewrite zlen_cons. pose proof (zlen_nonneg _ ts).
    split; [intros _; apply Z.leb_gt; lia|discriminate]. }
  destruct (counted ts) as [|t0 r] eqn:C.
  - cbn [obind]. destruct (list_eq_dec (list_eq_dec Z.eq_dec) [] []); [|congruence].
    destruct (zlen ts <=? 0) eqn:E.
    + split; [discriminate|]. intros (H & _). apply NE in H. discriminate.
    + split; [intros [= <-]; split; [now apply NE|auto]|intros (_ & _ & ->); reflexivity].
  - destruct (list_eq_dec (list_eq_dec Z.eq_dec) (t0 :: r) []) as [|_]; [congruence|].
    assert (N : ts <> []) by (intros ->; discriminate). apply NE in N. rewrite N.
    assert (T0 : t0 <> []). { rewrite Forall_forall in F. apply F. apply (proj1 (filter_In (fun t => if list_eq_dec Z.eq_dec t [0] then false else true) t0 ts)). fold (counted ts). rewrite C. left. reflexivity. }
    set (base := last (t0 :: r) t0).
    assert (B : In base (t0 :: r)).
    { unfold base. destruct (exists_last (l := t0 :: r) ltac:(discriminate)) as (l' & x & ->). rewrite last_last.
      apply in_or_app. right. left. reflexivity. }
    split.
    + destruct (wrap_dim dim (zlen t0)) as [w|] eqn:W; [|discriminate]. cbn [obind].
      apply wrap_inv in W; auto. destruct W as (k & D & ->). intros H.
      match type of H with obind ?c _ = _ => destruct c as [n|] eqn:E; [|discriminate] end. cbn [obind] in H.
      rewrite unary_spec in H. cbn [obind] in H.
      assert (Hk : (k < length base)%nat).
      { (* the checks force equal ranks *)
        assert (P : 0 <= Z.of_nat k) by lia. revert H. unfold pyset. destruct (Z.ltb_spec (Z.of_nat k) 0); [lia|].
        destruct (Z.ltb_spec (Z.of_nat k) 0); [lia|]. destruct (Z.leb_spec (zlen base) (Z.of_nat k)); [discriminate|].
        intros _. unfold zlen in *. lia. }
      apply size_spec in E; auto. destruct E as [A ->]. rewrite C in A. rewrite (pyset_valid base _ k) in H by (split; auto).
      injection H as <-. split; [now apply NE|]. split; auto. exists k. rewrite C. split.
      * rewrite Forall_forall in *. intros t Ht. assert (Aj := agree_sym _ _ _ (A t Ht)). split.
        -- assert (A0 := A t0 (or_introl eq_refl)). destruct Aj as [L1 _], A0 as [L2 _]. rewrite L1, L2. auto.
        -- eapply agree_trans; [exact Aj|apply agree_set].
      * rewrite set_nth_same by auto. f_equal; lia.
    + intros (_ & _ & k & A & S). rewrite Forall_forall in A.
      destruct (A t0 (or_introl eq_refl)) as [D A0]. rewrite (wrap_valid _ _ _ D). cbn [obind].
      destruct (A base B) as [Db Ab].
      assert (Hk : (k < length base)%nat) by apply Db.
      rewrite (proj2 (size_spec base k ts 0 (sumZ (map (fun t => nth k t 0) (t0 :: r))) Hk)).
      * cbn [obind]. rewrite unary_spec. cbn [obind]. rewrite (pyset_valid base _ k) by (split; auto).
        f_equal. symmetry. now apply agree_set_eq.
      * rewrite C. split; [|lia]. apply Forall_forall. intros t Ht. eapply agree_trans; [exact Ab|]. apply agree_sym, A, Ht.
Qed.

(** Inserting an axis into each and concatenating along it. *)
Lemma insert_length : forall k v s, (k <= length s)%nat -> length (insert_at k v s) = S (length s).
Proof. intros. unfold insert_at. rewrite app_length, firstn_length. simpl. rewrite skipn_length. lia. Qed.
Lemma insert_nth : forall k v s i, (k <= length s)%nat -> nth_error (insert_at k v s) i =
  if (i <? k)%nat then nth_error s i else if (i =? k)%nat then Some v else nth_error s (i - 1).
Proof.
  intros k v s i H. unfold insert_at. destruct (Nat.ltb_spec i k).
  - rewrite nth_error_app1 by (rewrite firstn_length; lia). now apply nth_error_firstn.
  - rewrite nth_error_app2 by (rewrite firstn_length; lia). rewrite firstn_length.
    replace (i - Nat.min k (length s))%nat with (i - k)%nat by lia.
    destruct (Nat.eqb_spec i k) as [->|N]; [now rewrite Nat.sub_diag|].
    destruct (i - k)%nat as [|m] eqn:E; [lia|]. simpl. rewrite nth_error_skipn. f_equal. lia.
Qed.
Lemma insert_agree : forall k v w s t, (k <= length s)%nat -> (k <= length t)%nat ->
  (agree_except k (insert_at k v s) (insert_at k w t) <-> s = t).
Proof.
  intros k v w s t Hs Ht. split.
  - intros [L H]. rewrite !insert_length in L by auto. apply nth_error_ext'. split; [lia|]. intros i Hi.
    destruct (Nat.lt_ge_cases i k) as [C|C].
    + specialize (H i ltac:(lia)). rewrite !insert_nth in H by auto. destruct (Nat.ltb_spec i k); [auto|lia].
    + specialize (H (S i) ltac:(lia)). rewrite !insert_nth in H by auto. destruct (Nat.ltb_spec (S i) k); [lia|].
      destruct (Nat.eqb_spec (S i) k); [lia|]. now replace (S i - 1)%nat with i in H by lia.
  - intros <-. split; [now rewrite !insert_length|]. intros i Hi. rewrite !insert_nth by auto.
    destruct (i <? k)%nat; auto. destruct (Nat.eqb_spec i k); congruence.
Qed.
Theorem C34_stack_spec : forall ts dim out, stack ts dim = Some out <->
  exists s k, ts <> [] /\ Forall (eq s) ts /\ denotes (S (length s)) dim k /\ out = insert_at k (zlen ts) s.
Proof.
  intros ts dim out. unfold stack. split.
  - destruct (mapM (fun t => unsqueeze t dim) ts) as [us|] eqn:M; [|discriminate]. cbn [obind]. intros H.
    apply C34_cat_spec in H. destruct H as (Hn & Hne & H).
    apply mapM_nth in M. destruct M as [L M].
    assert (P : forall i t, nth_error ts i = Some t -> exists k, denotes (S (length t)) dim k /\ nth_error us i = Some (insert_at k 1 t)).
    { intros i t Ht. specialize (M i t Ht).
      destruct (wrap_dim dim (zlen t + 1)) as [w|] eqn:W.
      - replace (zlen t + 1) with (zlen (1 :: t)) in W by (rewrite zlen_cons; lia). apply wrap_inv in W; [|discriminate].
        destruct W as (k & D & _). exists k. split; auto. rewrite <- M. now apply C46_unsqueeze_inserts_one.
      - assert (U : unsqueeze t dim = None) by (unfold unsqueeze; now rewrite W). rewrite U in M. symmetry in M. apply nth_error_None in M.
        assert (i < length ts)%nat by (apply nth_error_Some; congruence). lia. }
    assert (K : counted us = us).
    { unfold counted. assert (Q : forall u, In u us -> u <> [0]).
      { intros u Hu E. subst u. apply In_nth_error in Hu. destruct Hu as [i Hi].
        assert (Hlt : (i < length ts)%nat) by (rewrite <- L; apply nth_error_Some; congruence).
        destruct (nth_error ts i) as [t|] eqn:Et; [|apply nth_error_None in Et; lia].
        destruct (P i t Et) as (k & D & U). rewrite U in Hi. injection Hi as Hi.
        assert (Hk : (k <= length t)%nat) by (destruct D; lia).
        pose proof (insert_length k 1 t Hk) as IL. rewrite Hi in IL. simpl in IL. destruct t; [|simpl in IL; lia].
        simpl in Hk. assert (k = 0)%nat by lia. subst k. discriminate. }
      clear - Q. induction us as [|u us IH]; simpl; auto. destruct (list_eq_dec Z.eq_dec u [0]) as [->|]; [exfalso; apply (Q [0]); simpl; auto|].
      f_equal. apply IH. intros; apply Q; simpl; auto. }
    rewrite K in H. destruct ts as [|s ts]; [destruct us; [congruence|discriminate]|].
    destruct (list_eq_dec (list_eq_dec Z.eq_dec) us []) as [E|_]; [congruence|].
    destruct H as (k & A & S0). destruct (P 0%nat s eq_refl) as (k0 & D0 & U0).
    assert (Ek : k0 = k).
    { rewrite Forall_forall in A. destruct (A (insert_at k0 1 s)) as [D _]; [eapply nth_error_In; eauto|].
      rewrite insert_length in D by (destruct D0; lia). eapply denotes_inj; eauto. }
    subst k0. exists s, k.
    assert (All : forall i t, nth_error (s :: ts) i = Some t -> t = s).
    { intros i t Ht. destruct (P i t Ht) as (k' & D' & U'). rewrite Forall_forall in A.
      destruct (A (insert_at k' 1 t)) as [D1 A1]; [eapply nth_error_In; eauto|].
      destruct (A (insert_at k 1 s)) as [_ A2]; [eapply nth_error_In; eauto|].
      rewrite insert_length in D1 by (destruct D'; lia). assert (k' = k) by (eapply denotes_inj; eauto). subst k'.
      apply (insert_agree k 1 1 t s); [destruct D'; lia|destruct D0; lia|]. eapply agree_trans; [exact A1|]. now apply agree_sym. }
    assert (Us : us = map (fun _ => insert_at k 1 s) (s :: ts)).
    { apply nth_error_ext'. rewrite map_length. split; auto. intros i Hi. rewrite L in Hi. rewrite nth_error_map.
      destruct (nth_error (s :: ts) i) as [t|] eqn:Et; [|apply nth_error_None in Et; lia].
      rewrite (M i t Et) || idtac. destruct (P i t Et) as (k' & D' & U'). rewrite U'. cbn [option_map].
      rewrite (All i t Et) in *. do 2 f_equal. eapply denotes_inj; eauto. }
    split; [discriminate|]. split.
    { apply Forall_forall. intros t Ht. apply In_nth_error in Ht. destruct Ht as [i Hi]. symmetry. eauto. }
    split; auto. rewrite Forall_forall in A. destruct (A (insert_at k 1 s)) as [_ A2]; [eapply nth_error_In; eauto|].
    rewrite (agree_set_eq _ _ _ _ A2 S0). rewrite Us, map_map. apply nth_error_ext'.
    rewrite set_nth_length, !insert_length by (destruct D0; lia). split; auto. intros i _.
    assert (NN : nth k (insert_at k 1 s) 0 = 1).
    { apply nth_error_nth. rewrite insert_nth by (destruct D0; lia). now rewrite Nat.ltb_irrefl, Nat.eqb_refl. }
    assert (SM : forall l : list (list Z), sumZ (map (fun _ => nth k (insert_at k 1 s) 0) l) = zlen l).
    { rewrite NN. induction l as [|x l IH]; [reflexivity|]. cbn [map sumZ fold_right]. unfold sumZ in IH. rewrite IH, zlen_cons. reflexivity. }
    rewrite SM. destruct (Nat.eq_dec i k) as [->|Ne].
    + rewrite set_nth_same by (rewrite insert_length; destruct D0; lia).
      rewrite insert_nth by (destruct D0; lia). now rewrite Nat.ltb_irrefl, Nat.eqb_refl.
    + rewrite set_nth_other by auto. rewrite !insert_nth by (destruct D0; lia). destruct (i <? k)%nat; auto. destruct (Nat.eqb_spec i k); congruence.
  - intros (s & k & Hn & F & D & ->). assert (Hk : (k <= length s)%nat) by (destruct D; lia).
    assert (M : mapM (fun t => unsqueeze t dim) ts = Some (map (fun _ => insert_at k 1 s) ts)).
    { clear Hn. induction F as [|t ts <- F IH]; auto. cbn [mapM map]. rewrite (C46_unsqueeze_inserts_one _ _ _ D). cbn [obind]. now rewrite IH. }
    rewrite M. cbn [obind].
    assert (I0 : insert_at k 1 s <> [0]).
    { intros E. pose proof (insert_length k 1 s Hk) as IL. rewrite E in IL. simpl in IL. destruct s; [|simpl in IL; lia].
      simpl in Hk. assert (k = 0)%nat by lia. subst k. discriminate. }
    assert (I1 : insert_at k 1 s <> []).
    { intros E. pose proof (insert_length k 1 s Hk) as IL. rewrite E in IL. simpl in IL. lia. }
    apply C34_cat_spec. split; [destruct ts; [congruence|discriminate]|]. split.
    { apply Forall_forall. intros t Ht. apply in_map_iff in Ht. destruct Ht as (? & <- & _). auto. }
    assert (K : counted (map (fun _ => insert_at k 1 s) ts) = map (fun _ => insert_at k 1 s) ts).
    { unfold counted. clear - I0. induction ts as [|t ts IH]; simpl; auto. destruct (list_eq_dec Z.eq_dec (insert_at k 1 s) [0]); [congruence|].
      f_equal. auto. }
    rewrite K. destruct (list_eq_dec (list_eq_dec Z.eq_dec) _ []) as [E|_]; [destruct ts; [congruence|discriminate]|].
    exists k. split.
    + apply Forall_forall. intros t Ht. apply in_map_iff in Ht. destruct Ht as (? & <- & _). rewrite insert_length by auto.
      split; auto. now apply insert_agree.
    + rewrite insert_nth, Nat.ltb_irrefl, Nat.eqb_refl by auto. f_equal. rewrite map_map.
      assert (NN : nth k (insert_at k 1 s) 0 = 1).
      { apply nth_error_nth. rewrite insert_nth by auto. now rewrite Nat.ltb_irrefl, Nat.eqb_refl. }
      rewrite NN. clear. induction ts as [|t ts IH]; [reflexivity|]. cbn [map sumZ fold_right]. unfold sumZ in IH. rewrite <- IH. apply zlen_cons.
Qed.
Theorem C34_cat_keeps_element_count : forall ts dim out, cat ts dim = Some out -> counted ts <> [] ->
  prodZ out = sumZ (map prodZ (counted ts)).
Proof.
  intros ts dim out H Hn. apply C34_cat_spec in H. destruct H as (_ & _ & H).
  destruct (list_eq_dec (list_eq_dec Z.eq_dec) (counted ts) []) as [|_]; [contradiction|].
  destruct H as (k & A & S0). revert Hn A S0. generalize (counted ts). intros l Hn A S0.
  assert (P : forall s v : list Z, forall x, agree_except k s v -> nth_error v k = Some x -> (k < length s)%nat ->
    prodZ s = nth k s 0 * prodZ (drop_at k v) /\ prodZ v = x * prodZ (drop_at k v)).
  { assert (Q : forall (k : nat) (s : list Z), (k < length s)%nat -> prodZ s = nth k s 0 * prodZ (drop_at k s)).
    { induction k0; intros [|x s] Hk; simpl in Hk; try lia; [reflexivity|]. cbn [nth]. unfold drop_at in *. cbn [firstn skipn app prodZ fold_right] in *.
      fold (prodZ s). rewrite (IHk0 s) by lia. destruct s as [|y s]; [simpl in *; lia|]. cbn [skipn] in *.
      fold (prodZ (firstn k0 (y :: s) ++ skipn k0 s)). ring. }
    intros s v x [L Ag] Hx Hk. assert (D : drop_at k s = drop_at k v).
    { rewrite (agree_set_eq k (nth k s 0) v s) by (try (now apply agree_sym; split); now apply nth_error_nth').
      generalize (nth k s 0). clear. intros y. revert v. induction k; destruct v; simpl; auto. unfold drop_at in *. simpl. f_equal. apply IHk. }
    split; [rewrite <- D; now apply Q|]. rewrite (Q k v) by lia. f_equal. now apply nth_error_nth. }
  assert (R : prodZ out = sumZ (map (fun t => nth k t 0) l) * prodZ (drop_at k out)).
  { destruct l as [|t l]; [congruence|]. pose proof (Forall_inv A) as [D Ag]. apply (P t out _ Ag S0). apply D. }
  rewrite R. clear R Hn. revert A. clear S0. induction l as [|t l IH]; intros A; [simpl; lia|].
  pose proof (Forall_inv A) as [D Ag]. pose proof (Forall_inv_tail A) as A'. cbn [map sumZ fold_right] in *. unfold sumZ in *. rewrite <- IH by auto.
  destruct (nth_error out k) as [x|] eqn:E.
  - destruct (P t out x Ag E) as [-> _]; [apply D|]. ring.
  - apply nth_error_None in E. destruct D, Ag. lia.
Qed.
Example C34_nonvacuous : cat [[2; 3]; [0]; [2; 5]] (-1) = Some [2; 8] /\ counted [[2; 3]; [0]; [2; 5]] = [[2; 3]; [2; 5]] /\
  cat [[2; 3]; [3; 3]] 1 = None /\ cat [[0]] 7 = Some [0] /\ stack [[2; 3]; [2; 3]; [2; 3]] (-2) = Some [2; 3; 3] /\
  stack [[]; []] 0 = Some [2].
Proof. repeat split; reflexivity. Qed.

Print Assumptions C34_cat_spec.
Print Assumptions C34_stack_spec.
Print Assumptions C34_cat_keeps_element_count.
