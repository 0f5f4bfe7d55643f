From Coq Require Import String Ascii ZArith List Lia Bool Permutation Sorting.Sorted.
From Verif Require Import Prelude AsStridedModel AsStridedSpec.
Import ListNotations.
Open Scope Z_scope.

(** ** The decoder *)

Lemma skipn_cons_nth : forall (l : list Z) k,
  (k < length l)%nat -> skipn k l = nth k l 0 :: skipn (S k) l.
Proof. induction l; destruct k; simpl; intros; try lia; auto. apply IHl; lia. Qed.

Lemma add_steps_dot : forall stride k idx acc,
  add_steps k stride idx acc = acc + dot (skipn k idx) stride.
Proof.
  induction stride as [|s r IH]; intros; simpl.
  - destruct (skipn k idx); simpl; lia.
  - rewrite IH. destruct (Nat.lt_ge_cases k (length idx)) as [H|H].
    + rewrite (skipn_cons_nth idx k H). simpl.
      destruct (s =? 0) eqn:E; [|lia]. assert (s = 0) by lia. subst. lia.
    + rewrite (skipn_all2 idx) by lia. rewrite (skipn_all2 idx) by lia.
      rewrite nth_overflow by lia. simpl.
      destruct r; simpl; destruct (s =? 0); lia.
Qed.

Lemma dot_set_nth : forall coords stride d c,
  (d < length coords)%nat ->
  dot (set_nth d c coords) stride = dot coords stride + (c - nth d coords 0) * nth d stride 0.
Proof.
  induction coords as [|x r IH]; simpl; intros stride d c H; [lia|].
  destruct d; simpl; destruct stride; simpl; try lia.
  rewrite IH by lia. lia.
Qed.

Lemma nth_set_nth_neq : forall d e (c : Z) l, d <> e -> nth e (set_nth d c l) 0 = nth e l 0.
Proof. induction d; destruct e, l; simpl; intros; auto; congruence. Qed.
Lemma nth_set_nth_eq : forall d (c : Z) l, (d < length l)%nat -> nth d (set_nth d c l) 0 = c.
Proof. induction d; destruct l; simpl; intros; try lia; auto. apply IHd; lia. Qed.

Lemma decode_fold_inv : forall stride dims coords rem coords' rem',
  NoDup dims -> (forall d, In d dims -> (d < length coords)%nat /\ nth d coords 0 = 0) ->
  fold_left (decode_step stride) dims (coords, rem) = (coords', rem') ->
  dot coords' stride + rem' = dot coords stride + rem /\ length coords' = length coords /\
  (forall d, ~ In d dims -> nth d coords' 0 = nth d coords 0).
Proof.
  intros stride dims. induction dims as [|d r IH]; intros coords rem coords' rem' Hnd Hz H.
  - simpl in H. inversion H; subst. auto.
  - cbn [fold_left decode_step] in H. inversion Hnd; subst.
    destruct (nth d stride 0 =? 0) eqn:E.
    + apply IH in H; auto.
      * destruct H as (H1 & H4 & H5). repeat split; auto.
        intros x Hx. apply H5. intros Hc. apply Hx. now right.
      * intros x Hx. apply Hz. now right.
    + destruct (Hz d (or_introl eq_refl)) as [Hd1 Hd2].
      apply IH in H; auto.
      * destruct H as (H1 & H4 & H5). rewrite dot_set_nth in H1 by auto.
        rewrite set_nth_length in H4. repeat split; auto; [lia|].
        intros x Hx. rewrite H5 by (intros Hc; apply Hx; now right).
        apply nth_set_nth_neq. intros ->. apply Hx. now left.
      * intros x Hx. rewrite set_nth_length. rewrite nth_set_nth_neq.
        -- apply Hz. now right.
        -- intros ->. contradiction.
Qed.

Lemma insert_desc_perm : forall key x l, Permutation (insert_desc key x l) (x :: l).
Proof.
  induction l; simpl; auto. destruct (key a <? key x); auto.
  rewrite IHl. apply perm_swap.
Qed.

Lemma sort_desc_perm : forall key l, Permutation (sort_desc key l) l.
Proof.
  intros key l. unfold sort_desc.
  assert (H : forall l acc, Permutation (fold_left (fun acc x => insert_desc key x acc) l acc) (acc ++ l)).
  { clear l. induction l; simpl; intros acc; [now rewrite app_nil_r|].
    rewrite IHl, insert_desc_perm. simpl.
    rewrite <- Permutation_middle. reflexivity. }
  apply (H l []).
Qed.

Lemma dot_repeat0 : forall n l, dot (repeat 0 n) l = 0.
Proof. induction n; destruct l; simpl; auto. rewrite IHn. lia. Qed.
Lemma nth_repeat0 : forall n d, nth d (repeat 0 n) 0 = 0.
Proof. induction n; destruct d; simpl; auto. Qed.

Lemma decode_spec : forall bs bst off coords rem,
  decode bs bst off = (coords, rem) ->
  dot coords bst + rem = off /\ length coords = length bs.
Proof.
  unfold decode. intros bs bst off coords rem H.
  apply decode_fold_inv in H.
  - rewrite dot_repeat0, repeat_length in H. split; [lia|tauto].
  - eapply Permutation_NoDup; [symmetry; apply sort_desc_perm|apply seq_NoDup].
  - intros d Hd. rewrite repeat_length, nth_repeat0. split; auto.
    eapply Permutation_in in Hd; [|apply sort_desc_perm]. apply in_seq in Hd. lia.
Qed.

Lemma existsb_false : forall A (f : A -> bool) l,
  existsb f l = false -> forall x, In x l -> f x = false.
Proof.
  intros. destruct (f x) eqn:E; auto.
  assert (existsb f l = true) by (apply existsb_exists; eauto). congruence.
Qed.

Lemma in_bounds_nth : forall idx sh, length idx = length sh ->
  (forall d, (d < length sh)%nat -> 0 <= nth d idx 0 < nth d sh 0) -> in_bounds idx sh.
Proof.
  unfold in_bounds. induction idx; destruct sh; simpl; intros; try discriminate; constructor.
  - apply (H0 O). lia.
  - apply IHidx; [lia|]. intros d Hd. apply (H0 (S d)). lia.
Qed.

Lemma in_bounds_length : forall idx sh, in_bounds idx sh -> length idx = length sh.
Proof. intros. eapply Forall2_len; eauto. Qed.

Lemma indices_sound : forall bs bst boff size stride off coords,
  indices bs bst boff size stride off = Some coords ->
  forall idx, in_bounds idx size ->
    in_bounds (coords idx) bs /\
    address boff bst (coords idx) = address off stride idx.
Proof.
  unfold indices, address. intros bs bst boff size stride off coords H idx Hidx.
  destruct (forallb _ size); simpl in H; [|discriminate].
  destruct (steps_ok 0 stride size); simpl in H; [|discriminate].
  destruct (length bs <=? length bst)%nat; simpl in H; [|discriminate].
  destruct (negb (existsb _ _)) eqn:E1 in H; simpl in H; [|discriminate].
  destruct (negb (existsb _ _)) eqn:E2 in H; simpl in H; [|discriminate].
  inversion H; subst coords; clear H. cbv beta.
  apply negb_true_iff in E1, E2.
  pose proof (existsb_false _ _ _ E1 idx (proj2 (in_all_indices _ _) Hidx)) as R1.
  pose proof (existsb_false _ _ _ E2 idx (proj2 (in_all_indices _ _) Hidx)) as R2.
  cbv beta in R1, R2. clear E1 E2.
  rewrite add_steps_dot in *. simpl skipn in *.
  destruct (decode bs bst (off - boff + dot idx stride)) as [cs rem] eqn:D.
  simpl in *. apply decode_spec in D. destruct D as [D1 D2].
  split; [|lia].
  apply in_bounds_nth; auto. intros d Hd.
  pose proof (existsb_false _ _ _ R2 d) as R3. cbv beta in R3.
  rewrite in_seq in R3. specialize (R3 ltac:(lia)). lia.
Qed.

(** ** Completeness on packed layouts *)

Lemma packed_decode : forall shape stride order coords rem,
  NoDup order -> packed shape stride order ->
  (forall d, In d order -> (d < length coords)%nat /\ 0 < nth d shape 0) ->
  0 <= rem < prodZ (map (fun e => nth e shape 0) order) ->
  exists coords', fold_left (decode_step stride) order (coords, rem) = (coords', 0) /\
    length coords' = length coords /\
    (forall d, In d order -> 0 <= nth d coords' 0 < nth d shape 0) /\
    (forall d, ~ In d order -> nth d coords' 0 = nth d coords 0).
Proof.
  intros shape stride order. induction order as [|d r IH]; intros coords rem Hnd Hp Hz Hrem.
  - simpl in *. exists coords. split; [f_equal; lia|]. repeat split; auto; tauto.
  - simpl in Hp. destruct Hp as [Hst Hp]. inversion Hnd; subst.
    cbn [fold_left decode_step]. rewrite Hst.
    cbn [map] in Hrem. change (prodZ (?a :: ?b)) with (a * prodZ b) in Hrem.
    set (P := prodZ (map (fun e => nth e shape 0) r)) in *.
    assert (HP : 0 < P).
    { apply prodZ_pos. apply Forall_map. apply Forall_forall. intros x Hx.
      apply Hz. now right. }
    destruct (P =? 0) eqn:E; [lia|].
    destruct (Hz d (or_introl eq_refl)) as [Hd1 Hd2].
    assert (Hq : 0 <= rem / P < nth d shape 0).
    { split; [apply Z.div_pos; lia|]. apply Z.div_lt_upper_bound; lia. }
    assert (Hr : rem - rem / P * P = rem mod P) by (rewrite Z.mod_eq; lia).
    assert (Hm : 0 <= rem mod P < P) by (apply Z.mod_pos_bound; lia).
    destruct (IH (set_nth d (rem / P) coords) (rem - rem / P * P)) as (c' & F & L & B & O); auto.
    + intros x Hx. rewrite set_nth_length. apply Hz. now right.
    + rewrite Hr. auto.
    + exists c'. split; [exact F|]. rewrite set_nth_length in L. split; [auto|].
      split.
      * intros x [<-|Hx]; [|auto]. rewrite O by auto. now rewrite nth_set_nth_eq.
      * intros x Hx. rewrite O by (intros Hc; apply Hx; now right).
        apply nth_set_nth_neq. intros ->. apply Hx. now left.
Qed.

(** Sorting a list that is already sorted (non-increasing) leaves it unchanged. *)
Definition desc (key : nat -> Z) (a b : nat) := key b <= key a.

Lemma insert_desc_last : forall key x l,
  Forall (fun y => key x <= key y) l -> insert_desc key x l = l ++ [x].
Proof.
  induction l; simpl; intros H; auto. inversion H; subst.
  destruct (key a <? key x) eqn:E; [lia|]. now rewrite IHl.
Qed.

Lemma sort_desc_sorted_id : forall key l, StronglySorted (desc key) l -> sort_desc key l = l.
Proof.
  intros key l. unfold sort_desc.
  assert (H : forall l acc, StronglySorted (desc key) (acc ++ l) ->
            fold_left (fun acc x => insert_desc key x acc) l acc = acc ++ l).
  { clear l. induction l as [|a l IH]; simpl; intros acc Hs; [now rewrite app_nil_r|].
    rewrite insert_desc_last.
    - rewrite IH; rewrite <- app_assoc; auto.
    - clear IH. induction acc; constructor.
      + simpl in Hs. inversion Hs; subst. rewrite Forall_forall in H2.
        apply H2. apply in_or_app. right. now left.
      + apply IHacc. simpl in Hs. now inversion Hs. }
  intros Hs. now apply (H l []).
Qed.

(** The result of sorting is sorted. *)
Lemma insert_desc_sorted : forall key x l,
  StronglySorted (desc key) l -> StronglySorted (desc key) (insert_desc key x l).
Proof.
  induction l; simpl; intros H; [repeat constructor|].
  inversion H; subst. destruct (key a <? key x) eqn:E.
  - constructor; auto. constructor; [unfold desc; lia|].
    eapply Forall_impl; [|exact H3]. unfold desc. intros; lia.
  - constructor; auto. eapply Permutation_Forall; [symmetry; apply insert_desc_perm|].
    constructor; auto. unfold desc; lia.
Qed.

Lemma sort_desc_sorted : forall key l, StronglySorted (desc key) (sort_desc key l).
Proof.
  intros key l. unfold sort_desc.
  assert (H : forall l acc, StronglySorted (desc key) acc ->
     StronglySorted (desc key) (fold_left (fun acc x => insert_desc key x acc) l acc)).
  { clear l. induction l; simpl; auto using insert_desc_sorted. }
  apply H. constructor.
Qed.

Lemma sorted_perm_eq : forall key l m,
  StronglySorted (fun a b => key b < key a) l -> StronglySorted (desc key) m ->
  Permutation m l -> m = l.
Proof.
  induction l as [|a l IH]; intros m Hl Hm Hp.
  - apply Permutation_nil. now symmetry.
  - destruct m as [|b m]; [apply Permutation_nil in Hp; discriminate|].
    inversion Hl; subst. inversion Hm; subst.
    assert (b = a).
    { assert (Ha : In a (b :: m)) by (eapply Permutation_in; [symmetry; eauto|now left]).
      assert (Hb : In b (a :: l)) by (eapply Permutation_in; [eauto|now left]).
      destruct Hb as [|Hb]; [congruence|]. destruct Ha as [|Ha]; [congruence|].
      rewrite Forall_forall in H2, H4. specialize (H2 _ Hb). specialize (H4 _ Ha).
      unfold desc in H4. lia. }
    subst. f_equal. apply IH; auto. eapply Permutation_cons_inv; eauto.
Qed.

Lemma indices_complete_aux : forall bs bst boff size stride off,
  length bst = length bs -> Forall (fun n => 0 < n) bs ->
  length stride = length size -> Forall (fun n => 0 <= n) size ->
  packed bs bst (sort_desc (fun i => nth i bst 0) (seq 0 (length bs))) ->
  (forall idx, in_bounds idx size -> 0 <= address off stride idx - boff < prodZ bs) ->
  exists coords, indices bs bst boff size stride off = Some coords.
Proof.
  intros bs bst boff size stride off Hl Hpos Hrank Hsz Hpk Hin.
  set (order := sort_desc (fun i => nth i bst 0) (seq 0 (length bs))) in *.
  assert (Hperm : Permutation order (seq 0 (length bs))) by apply sort_desc_perm.
  assert (Hprod : prodZ (map (fun e => nth e bs 0) order) = prodZ bs).
  { rewrite (prodZ_perm _ (map (fun e => nth e bs 0) (seq 0 (length bs)))).
    - f_equal. clear. induction bs; simpl; auto. f_equal.
      rewrite <- seq_shift, map_map. auto.
    - now apply Permutation_map. }
  assert (Hdec : forall idx, in_bounds idx size ->
    exists cs, decode bs bst (add_steps 0 stride idx (off - boff)) = (cs, 0) /\
      length cs = length bs /\ forall d, (d < length bs)%nat -> 0 <= nth d cs 0 < nth d bs 0).
  { intros idx Hi. unfold decode. fold order. rewrite add_steps_dot. simpl skipn.
    destruct (packed_decode bs bst order (repeat 0 (length bs)) (off - boff + dot idx stride))
      as (cs & F & L & B & _); auto.
    - eapply Permutation_NoDup; [symmetry; eauto|apply seq_NoDup].
    - intros d Hd. rewrite repeat_length. eapply Permutation_in in Hd; [|eauto].
      apply in_seq in Hd. split; [lia|]. rewrite Forall_forall in Hpos. apply Hpos.
      apply nth_In. lia.
    - rewrite Hprod. specialize (Hin _ Hi). unfold address in Hin. lia.
    - exists cs. rewrite repeat_length in L. repeat split; auto; apply B;
      (eapply Permutation_in; [symmetry; eauto|apply in_seq; lia]). }
  unfold indices.
  assert (forallb (fun n => 0 <=? n) size = true) as ->.
  { apply forallb_forall. rewrite Forall_forall in Hsz. intros x Hx.
    specialize (Hsz _ Hx). lia. }
  assert (Hok : forall st k, (k + length st <= length size)%nat -> steps_ok k st size = true).
  { induction st; simpl; intros; auto. rewrite IHst by lia.
    assert ((k <? length size)%nat = true) as -> by (apply Nat.ltb_lt; lia).
    now rewrite orb_true_r. }
  rewrite Hok by lia.
  assert ((length bs <=? length bst)%nat = true) as -> by (apply Nat.leb_le; lia).
  simpl.
  match goal with |- context [negb (existsb ?f ?l)] => assert (E : existsb f l = false) end.
  { apply not_true_iff_false. intros Hc. apply existsb_exists in Hc.
    destruct Hc as (idx & Hi & Hc). apply in_all_indices in Hi.
    destruct (Hdec _ Hi) as (cs & D & _). rewrite D in Hc. simpl in Hc. discriminate. }
  rewrite E; clear E. simpl.
  match goal with |- context [negb (existsb ?f ?l)] => assert (E : existsb f l = false) end.
  { apply not_true_iff_false. intros Hc. apply existsb_exists in Hc.
    destruct Hc as (idx & Hi & Hc). apply in_all_indices in Hi.
    apply existsb_exists in Hc. destruct Hc as (d & Hd & Hc). apply in_seq in Hd.
    destruct (Hdec _ Hi) as (cs & D & _ & B). rewrite D in Hc. simpl in Hc.
    specialize (B d ltac:(lia)). lia. }
  rewrite E. simpl. eauto.
Qed.

Lemma row_major_length : forall sh, length (row_major sh) = length sh.
Proof. induction sh; simpl; auto. Qed.

Lemma row_major_nth_packed : forall sh,
  packed sh (row_major sh) (seq 0 (length sh)).
Proof.
  assert (H : forall sh pre st, length pre = length st ->
    packed (pre ++ sh) (st ++ row_major sh) (seq (length pre) (length sh))).
  { induction sh as [|n r IH]; intros pre st Hl; simpl; auto. split.
    - rewrite app_nth2 by lia. rewrite Hl, Nat.sub_diag. simpl. f_equal.
      rewrite <- (map_id r) at 1.
      clear IH. revert pre st Hl. induction r as [|m r IHr]; intros; simpl; auto. f_equal.
      + rewrite app_nth2 by lia. replace (S (length st) - length pre)%nat with 1%nat by lia. reflexivity.
      + specialize (IHr (pre ++ [n]) (st ++ [n])). rewrite <- app_assoc in IHr.
        change ([n] ++ n :: r) with (n :: n :: r) in IHr.
        rewrite !app_length in IHr. simpl in IHr.
        replace (length st + 1)%nat with (S (length st)) in IHr by lia.
        rewrite IHr by lia. apply map_ext_in. intros x Hx. apply in_seq in Hx.
        rewrite !app_nth2 by lia.
        destruct (x - length pre)%nat as [|[|y]] eqn:Ey; try lia. reflexivity.
    - specialize (IH (pre ++ [n]) (st ++ [prodZ r])).
      rewrite <- !app_assoc in IH. simpl in IH. rewrite !app_length in IH. simpl in IH.
      replace (length pre + 1)%nat with (S (length pre)) in IH by lia. apply IH. lia. }
  intros. apply (H sh [] []). reflexivity.
Qed.

Lemma row_major_sorted : forall sh, Forall (fun n => 0 < n) sh ->
  StronglySorted (desc (fun i => nth i (row_major sh) 0)) (seq 0 (length sh)).
Proof.
  induction 1 as [|n r Hn Hr IH]; simpl; constructor.
  - rewrite <- seq_shift.
    clear -IH. induction (seq 0 (length r)) as [|a l IHl]; simpl; constructor.
    + apply IHl. now inversion IH.
    + inversion IH; subst. apply Forall_map. eapply Forall_impl; [|eauto].
      unfold desc. simpl. auto.
  - rewrite <- seq_shift. apply Forall_map. apply Forall_forall. intros x Hx.
    apply in_seq in Hx. unfold desc. simpl.
    clear -Hr Hx. revert x Hx. induction Hr as [|m r Hm Hr IH]; simpl; intros x Hx; [lia|].
    pose proof (prodZ_pos _ Hr). destruct x.
    + nia.
    + specialize (IH x ltac:(lia)). nia.
Qed.

Lemma indices_complete_row_major : forall bs boff size stride off,
  Forall (fun n => 0 < n) bs ->
  length stride = length size -> Forall (fun n => 0 <= n) size ->
  (forall idx, in_bounds idx size -> 0 <= address off stride idx - boff < prodZ bs) ->
  exists coords, indices bs (row_major bs) boff size stride off = Some coords.
Proof.
  intros. apply indices_complete_aux; auto.
  - apply row_major_length.
  - rewrite sort_desc_sorted_id by now apply row_major_sorted.
    apply row_major_nth_packed.
Qed.

Lemma packed_strict : forall bs bst order,
  (forall d, In d order -> 1 < nth d bs 0) -> packed bs bst order ->
  StronglySorted (fun a b => nth b bst 0 < nth a bst 0) order.
Proof.
  induction order as [|d r IH]; simpl; intros Hs Hp; constructor.
  - apply IH; auto. tauto.
  - destruct Hp as [Hd Hp]. rewrite Hd.
    assert (HH : forall d', In d' r -> nth d' bst 0 < prodZ (map (fun e => nth e bs 0) r)).
    { clear IH Hd. assert (Hs' : forall d, In d r -> 1 < nth d bs 0) by auto. clear Hs.
      induction r as [|x r IHr]; simpl; intros d' [].
      - subst. destruct Hp as [-> Hp].
        assert (0 < prodZ (map (fun e => nth e bs 0) r)).
        { apply prodZ_pos. apply Forall_map, Forall_forall. intros y Hy.
          specialize (Hs' y (or_intror Hy)). lia. }
        specialize (Hs' d' (or_introl eq_refl)). nia.
      - destruct Hp as [_ Hp]. pose proof (Hs' x (or_introl eq_refl)).
        assert (0 < prodZ (map (fun e => nth e bs 0) r)).
        { apply prodZ_pos. apply Forall_map, Forall_forall. intros y Hy.
          specialize (Hs' y (or_intror Hy)). lia. }
        assert (nth d' bst 0 < prodZ (map (fun e => nth e bs 0) r)).
        { apply IHr; auto. intros; apply Hs'; now right. }
        nia. }
    apply Forall_forall. auto.
Qed.

Lemma indices_complete_packed : forall bs bst order boff size stride off,
  length bst = length bs -> Forall (fun n => 1 < n) bs ->
  Permutation order (seq 0 (length bs)) -> packed bs bst order ->
  length stride = length size -> Forall (fun n => 0 <= n) size ->
  (forall idx, in_bounds idx size -> 0 <= address off stride idx - boff < prodZ bs) ->
  exists coords, indices bs bst boff size stride off = Some coords.
Proof.
  intros bs bst order boff size stride off Hl Hbig Hperm Hpk ? ? ?.
  assert (HH : forall d, In d order -> 1 < nth d bs 0).
  { intros d Hd. eapply Permutation_in in Hd; eauto. apply in_seq in Hd.
    rewrite Forall_forall in Hbig. apply Hbig. apply nth_In. lia. }
  apply indices_complete_aux; auto.
  - eapply Forall_impl; [|exact Hbig]. simpl; lia.
  - rewrite (sorted_perm_eq (fun i => nth i bst 0) order); auto.
    + now apply packed_strict with bs.
    + apply sort_desc_sorted.
    + rewrite sort_desc_perm. now symmetry.
Qed.
