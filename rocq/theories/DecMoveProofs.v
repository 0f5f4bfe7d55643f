(** Proofs about DecMoveModel.v. *)
From Coq Require Import ZArith List Lia Bool Sorting.Permutation.
From Verif Require Import Prelude TensorOps DecMoveModel DecMoveSpec.
Import ListNotations.
Open Scope Z_scope.

(** * Lists of components *)
Lemma get_ext : forall l l', length l = length l' -> (forall k, (k < length l)%nat -> get l k = get l' k) -> l = l'.
Proof. intros l l' L H. apply nth_ext with (d := 0) (d' := 0); auto. Qed.
Lemma length_put : forall l k x, length (put l k x) = length l.
Proof. induction l as [|y l IH]; intros [|k] x; cbn [put length]; auto. Qed.
Lemma get_put : forall l k x j, get (put l k x) j = if Nat.eqb j k && Nat.ltb k (length l) then x else get l j.
Proof.
  unfold get. induction l as [|y l IH]; intros k x j; cbn [put length].
  - rewrite andb_comm. destruct k; reflexivity.
  - destruct k as [|k], j as [|j]; cbn [put nth]; try reflexivity. rewrite IH. reflexivity.
Qed.
Lemma get_put_same : forall l k x, (k < length l)%nat -> get (put l k x) k = x.
Proof. intros l k x H. rewrite get_put, Nat.eqb_refl. apply Nat.ltb_lt in H. now rewrite H. Qed.
Lemma get_put_other : forall l k x j, j <> k -> get (put l k x) j = get l j.
Proof. intros l k x j H. rewrite get_put. apply Nat.eqb_neq in H. now rewrite H. Qed.
Lemma length_insert : forall B k (x : B) l, length (insert k x l) = S (length l).
Proof. intros B k x l. revert k. induction l as [|y l IH]; intros [|k]; cbn [insert length]; auto. Qed.
Lemma length_remove : forall B k (l : list B), (k < length l)%nat -> length (remove k l) = pred (length l).
Proof. intros B k l. revert k. induction l as [|y l IH]; intros [|k] H; cbn [remove length] in *; try lia. rewrite IH by lia. lia. Qed.
Lemma get_insert : forall k x l j, (k <= length l)%nat ->
  get (insert k x l) j = if Nat.ltb j k then get l j else if Nat.eqb j k then x else get l (pred j).
Proof.
  unfold get. induction k as [|k IH]; intros x l j H.
  - destruct j; destruct l; reflexivity.
  - destruct l as [|y l]; cbn [length] in H; [lia|]. cbn [insert]. destruct j as [|j]; [reflexivity|].
    cbn [nth]. rewrite IH by lia. change (S j <? S k)%nat with (j <? k)%nat. change (S j =? S k)%nat with (j =? k)%nat.
    destruct (Nat.ltb_spec j k); [reflexivity|]. destruct (Nat.eqb_spec j k); [reflexivity|]. destruct j; [lia|reflexivity].
Qed.
Lemma get_remove : forall k l j, get (remove k l) j = if Nat.ltb j k then get l j else get l (S j).
Proof.
  unfold get. induction k as [|k IH]; intros l j.
  - destruct l; destruct j; reflexivity.
  - destruct l as [|y l]; [cbn [remove]; destruct (j <? S k)%nat; destruct j; reflexivity|].
    cbn [remove]. destruct j as [|j]; [reflexivity|]. cbn [nth]. rewrite IH. reflexivity.
Qed.
Lemma remove_insert : forall B k (x : B) l, (k <= length l)%nat -> remove k (insert k x l) = l.
Proof. induction k as [|k IH]; intros x l H; destruct l as [|y l]; cbn [length] in H; try reflexivity; try lia. cbn. f_equal. apply IH. lia. Qed.
Lemma get_map_seq : forall f n j, (j < n)%nat -> get (map f (seq 0 n)) j = f j.
Proof. intros f n j H. unfold get. rewrite nth_indep with (d' := f O) by (rewrite map_length, seq_length; lia). rewrite map_nth, seq_nth by lia. reflexivity. Qed.
Lemma within_iff : forall s ix, within s ix <-> length ix = length s /\ forall k, (k < length s)%nat -> 0 <= get ix k < get s k.
Proof.
  unfold within, get. intros s ix. split.
  - intros H. induction H as [|n i s ix B _ [L G]]; [split; [reflexivity|cbn; intros; lia]|].
    split; [cbn; lia|]. intros [|k] K; cbn [nth length] in *; [lia|]. apply G. lia.
  - revert ix. induction s as [|n s IH]; intros [|i ix] [L G]; cbn [length] in *; try lia; [constructor|].
    constructor; [apply (G O); lia|]. apply IH. split; [lia|]. intros k K. apply (G (S k)). lia.
Qed.
Lemma within_length : forall s ix, within s ix -> length ix = length s.
Proof. intros s ix H. apply within_iff in H. tauto. Qed.
Lemma axis_lt : forall r d k, axis r d = Some k -> (Z.of_nat k < r).
Proof. unfold axis. intros r d k. destruct (Z.leb_spec (- r) d), (Z.ltb_spec d r); cbn; try discriminate. intros E. injection E as <-. destruct (Z.ltb_spec d 0); lia. Qed.
Lemma axis_rank : forall A (t : tensor A) d k, axis (rank t) d = Some k -> (k < length (sizes t))%nat.
Proof. intros A t d k H. apply axis_lt in H. unfold rank, zlen in H. lia. Qed.
Lemma same_refl : forall A (t : tensor A), same t t.
Proof. intros. split; auto. Qed.
Lemma same_sym : forall A (t u : tensor A), same t u -> same u t.
Proof. intros A t u [S E]. split; [auto|]. intros ix W. symmetry. apply E. now rewrite S. Qed.
Lemma same_trans : forall A (t u v : tensor A), same t u -> same u v -> same t v.
Proof. intros A t u v [S E] [S' E']. split; [congruence|]. intros ix W. rewrite E by auto. apply E'. now rewrite <- S. Qed.
Lemma agree_refl : forall A (x : option (tensor A)), agree x x.
Proof. intros A [t|]; cbn; [apply same_refl|exact Logic.I]. Qed.
Lemma sized_get : forall A (t : tensor A) k, sized t -> 0 <= get (sizes t) k.
Proof. intros A t k H. unfold sized in H. unfold get. destruct (Nat.ltb_spec k (length (sizes t))). - rewrite Forall_forall in H. apply H, nth_In. auto. - rewrite nth_overflow by auto. lia. Qed.

Ltac idx :=
  repeat first [rewrite length_put | rewrite length_insert | rewrite length_remove by (rewrite ?length_put, ?length_insert; lia) | rewrite map_length | rewrite seq_length];
  try lia.

Lemma reindex_same : forall A (t : tensor A) s f g, (forall ix, within s ix -> f ix = g ix) -> same (reindex s f t) (reindex s g t).
Proof. intros A t s f g H. split; [reflexivity|]. intros ix W. cbn in *. now rewrite H. Qed.

(** * select, narrow and split *)
Lemma bound_in : forall n i default, 0 <= i <= n -> bound n (Some i) default = i.
Proof. intros n i default H. unfold bound. destruct (Z.ltb_spec i 0); lia. Qed.
Lemma slice_range : forall A (t : tensor A) d k s e, axis (rank t) d = Some k -> 0 <= s <= e -> e <= get (sizes t) k ->
  exists u, slice t d (Some s) (Some e) 1 = Some u /\ same u (reindex (put (sizes t) k (e - s)) (fun ix => put ix k (s + get ix k)) t).
Proof.
  intros A t d k s e Ax H H'. unfold slice. rewrite Ax. cbn [obind]. change (1 <=? 0) with false. cbv iota.
  rewrite !bound_in by lia.
  assert (L : (if s <? e then (e - s + 1 - 1) / 1 else 0) = e - s) by (destruct (Z.ltb_spec s e); rewrite ?Z.div_1_r; lia).
  rewrite L. eexists. split; [reflexivity|]. apply reindex_same. intros ix _. f_equal. lia.
Qed.
Lemma rank_put : forall A (t : tensor A) k n f, rank (reindex (put (sizes t) k n) f t) = rank t.
Proof. intros. unfold rank, zlen. cbn [sizes reindex]. now rewrite length_put. Qed.
Lemma same_rank : forall A (t u : tensor A), same t u -> rank t = rank u.
Proof. intros A t u [S _]. unfold rank. now rewrite S. Qed.
Lemma within_insert : forall s ix k n i, (k <= length s)%nat -> within s ix -> 0 <= i < n -> within (insert k n s) (insert k i ix).
Proof.
  intros s ix k n i K W I. apply within_iff. apply within_iff in W. destruct W as [L G]. split; [idx|].
  rewrite length_insert. intros j J. rewrite !get_insert by lia. destruct (Nat.ltb_spec j k); [apply G; lia|].
  destruct (Nat.eqb_spec j k); [lia|]. apply G. lia.
Qed.
Lemma insert_remove_put : forall l k x, (k < length l)%nat -> insert k x (remove k l) = put l k x.
Proof.
  intros l k x. revert k. induction l as [|y l IH]; intros [|k] H; cbn [length] in H; try lia; [destruct l; reflexivity|].
  cbn. f_equal. apply IH. lia.
Qed.
Lemma remove_put : forall l k x, remove k (put l k x) = remove k l.
Proof. intros l k x. revert k. induction l as [|y l IH]; intros [|k]; cbn; auto. f_equal. apply IH. Qed.
Lemma put_insert : forall l k x y, (k <= length l)%nat -> put (insert k x l) k y = insert k y l.
Proof. induction l as [|z l IH]; intros [|k] x y H; cbn [length] in H; try lia; try reflexivity. cbn. f_equal. apply IH. lia. Qed.
Lemma get_insert_same : forall l k x, (k <= length l)%nat -> get (insert k x l) k = x.
Proof. intros. rewrite get_insert by auto. rewrite Nat.ltb_irrefl, Nat.eqb_refl. reflexivity. Qed.

Lemma select_proof : forall A (t u : tensor A) dim index, torch_select t dim index = Some u -> exists v, dec_select t dim index = Some v /\ same v u.
Proof.
  intros A t u dim index H. unfold torch_select in H. destruct (axis (rank t) dim) as [k|] eqn:Ax; [|discriminate]. cbn [obind] in H.
  destruct (Z.leb_spec (- get (sizes t) k) index), (Z.ltb_spec index (get (sizes t) k)); try discriminate. injection H as <-.
  pose proof (axis_rank _ _ _ _ Ax) as K.
  unfold dec_select, size_int. rewrite Ax. cbn [obind]. set (n := get (sizes t) k) in *.
  assert (Es : index + (if index <? 0 then 1 else 0) * n = if index <? 0 then index + n else index) by (destruct (Z.ltb_spec index 0); lia).
  rewrite Es. set (s := if index <? 0 then index + n else index). assert (Hs : 0 <= s < n) by (subst s; destruct (Z.ltb_spec index 0); lia).
  destruct (slice_range A t dim k s (s + 1) Ax ltac:(lia) ltac:(lia)) as [w [Ew Sw]]. rewrite Ew. cbn [obind].
  unfold squeeze. rewrite (same_rank _ _ _ Sw), rank_put, Ax. cbn [obind]. destruct Sw as [Ss Se]. cbn [sizes reindex] in Ss.
  rewrite Ss, get_put_same by auto. replace (s + 1 - s) with 1 in * by lia. rewrite Z.eqb_refl.
  eexists. split; [reflexivity|]. split; cbn [sizes reindex elt]; [now rewrite remove_put|].
  intros ix W. rewrite remove_put in W. pose proof (within_length _ _ W) as L. rewrite length_remove in L by auto.
  rewrite Se.
  - cbn [elt reindex]. f_equal. rewrite get_insert_same by lia. rewrite put_insert by lia. f_equal. lia.
  - rewrite Ss. rewrite <- insert_remove_put by auto. apply within_insert; [rewrite length_remove by auto; lia|auto|lia].
Qed.

Lemma narrow_proof : forall A (t u : tensor A) dim start length, torch_narrow t dim start length = Some u ->
  0 <= start \/ start + length <> 0 \/ length = 0 -> exists v, dec_narrow t dim start length = Some v /\ same v u.
Proof.
  intros A t u dim start length H Hs. unfold torch_narrow in H. destruct (axis (rank t) dim) as [k|] eqn:Ax; [|discriminate]. cbn [obind] in H.
  set (n := get (sizes t) k) in *. set (s := if start <? 0 then start + n else start) in *.
  destruct (Z.leb_spec 0 s), (Z.leb_spec 0 length), (Z.leb_spec (s + length) n); try discriminate. cbn in H. injection H as <-.
  unfold dec_narrow. assert (R : slice t dim (Some start) (Some (start + length)) 1 = slice t dim (Some s) (Some (s + length)) 1).
  { unfold slice. rewrite Ax. cbn [obind]. change (1 <=? 0) with false. cbv iota. fold n. rewrite !(bound_in n s), (bound_in n (s + length)) by lia.
    assert (B : bound n (Some start) 0 = s) by (unfold bound; subst s; destruct (Z.ltb_spec start 0); lia). rewrite B.
    destruct (Z.ltb_spec start 0).
    - destruct (Z.eq_dec (start + length) 0) as [Z0|NZ].
      + assert (length = 0) by lia. unfold bound. rewrite Z0. change (0 <? 0) with false. cbv iota.
        replace (s <? Z.max 0 (Z.min n 0)) with false by (symmetry; apply Z.ltb_ge; lia).
        replace (s <? s + length) with false by (symmetry; apply Z.ltb_ge; lia). reflexivity.
      + assert (B' : bound n (Some (start + length)) n = s + length).
        { unfold bound. subst s. destruct (Z.ltb_spec (start + length) 0); lia. } rewrite B'. reflexivity.
    - assert (s = start) by (subst s; reflexivity). rewrite <- H3. rewrite bound_in by lia. reflexivity. }
  rewrite R. destruct (slice_range A t dim k s (s + length) Ax ltac:(lia) ltac:(lia)) as [v [Ev Sv]]. exists v. split; [auto|].
  replace (s + length - s) with length in Sv by lia. exact Sv.
Qed.
Lemma narrow_exception : forall A (t : tensor A) dim k start length, axis (rank t) dim = Some k -> start < 0 -> 0 < length -> start + length = 0 ->
  - start <= get (sizes t) k ->
  exists v, dec_narrow t dim start length = Some v /\ sizes v = put (sizes t) k 0.
Proof.
  intros A t dim k start length Ax H H' H'' Hn. unfold dec_narrow, slice. rewrite Ax. cbn [obind]. change (1 <=? 0) with false. cbv iota.
  eexists. split; [reflexivity|]. cbn [sizes reindex]. f_equal. rewrite H''. unfold bound. change (0 <? 0) with false. cbv iota.
  destruct (Z.ltb_spec start 0); [|lia]. destruct (Z.ltb_spec (Z.max 0 (Z.min (get (sizes t) k) (start + get (sizes t) k))) (Z.max 0 (Z.min (get (sizes t) k) 0))); [lia|reflexivity].
Qed.

Lemma split_parts : forall A (t : tensor A) dim k split start, axis (rank t) dim = Some k -> Forall (fun n => 0 <= n) split -> 0 <= start -> start + sumZ split <= get (sizes t) k ->
  exists vs, split_slices t dim start split = Some vs /\ Forall2 same vs (parts t k start split).
Proof.
  intros A t dim k split. induction split as [|n rest IH]; intros start Ax P S0 L; cbn [split_slices parts].
  - exists []. auto.
  - inversion_clear P as [|? ? Pn Pr]. cbn [sumZ fold_right] in L. fold (sumZ rest) in L.
    assert (0 <= sumZ rest) by (clear - Pr; induction Pr; cbn [sumZ fold_right]; [lia|fold (sumZ l); lia]).
    destruct (slice_range A t dim k start (start + n) Ax ltac:(lia) ltac:(lia)) as [v [Ev Sv]]. rewrite Ev. cbn [obind].
    destruct (IH (start + n) Ax Pr ltac:(lia) ltac:(lia)) as [vs [Evs Svs]]. rewrite Evs. cbn [obind].
    exists (v :: vs). split; [reflexivity|]. constructor; [|auto]. replace (start + n - start) with n in Sv by lia. exact Sv.
Qed.
Lemma split_proof : forall A (t : tensor A) split dim us, split <> [] -> torch_split t split dim = Some us ->
  exists vs, dec_split t split dim = Some (Some vs) /\ Forall2 same vs us.
Proof.
  intros A t split dim us N H. unfold torch_split in H. destruct (axis (rank t) dim) as [k|] eqn:Ax; [|discriminate]. cbn [obind] in H.
  destruct (forallb (fun n => 0 <=? n) split) eqn:F; [|discriminate]. destruct (Z.eqb_spec (sumZ split) (get (sizes t) k)); [|discriminate]. cbn in H. injection H as <-.
  assert (P : Forall (fun n => 0 <= n) split) by (apply Forall_forall; rewrite forallb_forall in F; intros x X; specialize (F x X); lia).
  destruct (split_parts A t dim k split 0 Ax P ltac:(lia) ltac:(lia)) as [vs [E S]]. exists vs. split; [|auto].
  unfold dec_split. destruct split; [contradiction|]. now rewrite E.
Qed.

(** * Flips and transpositions *)
Lemma put_get_self : forall l k, put l k (get l k) = l.
Proof. unfold get. induction l as [|x l IH]; intros [|k]; cbn; auto. now rewrite IH. Qed.
Lemma flip_one : forall A (t : tensor A) d k, axis (rank t) d = Some k -> exists u, flip t [d] = Some u /\ same u (backwards k t).
Proof.
  intros A t d k Ax. unfold flip. cbn [mapM]. rewrite Ax. cbn [obind distinct mem negb andb]. eexists. split; [reflexivity|].
  apply reindex_same. intros ix W. pose proof (within_length _ _ W) as L. pose proof (axis_rank _ _ _ _ Ax) as K.
  apply get_ext; [idx|]. rewrite map_length, seq_length. intros j J. rewrite get_map_seq by auto. cbn [mem]. rewrite orb_false_r, get_put.
  destruct (Nat.eqb_spec j k) as [->|N]; cbn [andb].
  - replace (k <? length ix)%nat with true by (symmetry; apply Nat.ltb_lt; lia). reflexivity.
  - reflexivity.
Qed.
Lemma flip_two : forall A (t : tensor A) d e a b, axis (rank t) d = Some a -> axis (rank t) e = Some b -> a <> b ->
  exists u, flip t [d; e] = Some u /\
    same u (reindex (sizes t) (fun ix => put (put ix a (get (sizes t) a - 1 - get ix a)) b (get (sizes t) b - 1 - get ix b)) t).
Proof.
  intros A t d e a b Ax Bx N. unfold flip. cbn [mapM]. rewrite Ax. cbn [obind]. rewrite Bx. cbn [obind distinct mem negb andb].
  destruct (Nat.eqb_spec a b); [contradiction|]. cbn [orb negb andb]. eexists. split; [reflexivity|].
  apply reindex_same. intros ix W. pose proof (within_length _ _ W) as L. pose proof (axis_rank _ _ _ _ Ax) as K. pose proof (axis_rank _ _ _ _ Bx) as K'.
  apply get_ext; [idx|]. rewrite map_length, seq_length. intros j J. rewrite get_map_seq by auto. cbn [mem]. rewrite orb_false_r, !get_put, length_put.
  destruct (Nat.eqb_spec j b) as [->|Nb]; cbn [andb orb].
  - rewrite orb_true_r. replace (b <? length ix)%nat with true by (symmetry; apply Nat.ltb_lt; lia). reflexivity.
  - rewrite orb_false_r. destruct (Nat.eqb_spec j a) as [->|Na]; cbn [andb]; [|reflexivity].
    replace (a <? length ix)%nat with true by (symmetry; apply Nat.ltb_lt; lia). reflexivity.
Qed.
Lemma fliplr_proof : forall A (t : tensor A), match dec_fliplr t with None => torch_fliplr t = None | Some x => agree x (torch_fliplr t) end.
Proof.
  intros A t. unfold dec_fliplr, torch_fliplr. destruct (Z.ltb_spec (rank t) 2) as [|R]; [reflexivity|].
  destruct (flip_one A t 1 1) as [u [E S]]; [unfold axis; destruct (Z.leb_spec (- rank t) 1), (Z.ltb_spec 1 (rank t)); cbn; try reflexivity; lia|].
  rewrite E. exact S.
Qed.
Lemma flipud_proof : forall A (t : tensor A), match dec_flipud t with None => torch_flipud t = None | Some x => agree x (torch_flipud t) end.
Proof.
  intros A t. unfold dec_flipud, torch_flipud. destruct (Z.ltb_spec (rank t) 1) as [|R]; [reflexivity|].
  destruct (flip_one A t 0 0) as [u [E S]]; [unfold axis; destruct (Z.leb_spec (- rank t) 0), (Z.ltb_spec 0 (rank t)); cbn; try reflexivity; lia|].
  rewrite E. exact S.
Qed.
Lemma t_proof : forall A (t : tensor A), match dec_t t with None => torch_t t = None | Some x => agree x (torch_t t) end.
Proof.
  intros A t. unfold dec_t, torch_t, rank. destruct (sizes t) as [|a [|b [|c r]]] eqn:S.
  - cbn. apply same_refl.
  - cbn. apply same_refl.
  - cbn. unfold transpose, rank. rewrite S. cbn. split; [reflexivity|]. intros ix W. cbn in W. inversion W as [|? i ? l ? W1]; subst. inversion W1 as [|? j ? l' ? W2]; subst. inversion W2; subst. reflexivity.
  - rewrite !zlen_cons. pose proof (zlen_nonneg _ r). destruct (Z.gtb_spec (1 + (1 + (1 + zlen r))) 2); [reflexivity|lia].
Qed.

(** * Permutations *)
Lemma mem_In : forall x l, mem x l = true <-> In x l.
Proof. induction l as [|y l IH]; cbn; [split; [discriminate|tauto]|]. rewrite orb_true_iff, IH, Nat.eqb_eq. intuition. Qed.
Lemma distinct_NoDup : forall l, distinct l = true <-> NoDup l.
Proof.
  induction l as [|x l IH]; cbn; [split; auto using NoDup_nil|]. rewrite andb_true_iff, IH, negb_true_iff. split.
  - intros [M D]. constructor; [|auto]. intros I. apply mem_In in I. congruence.
  - intros H. inversion H as [|? ? NI ND]; subst. split; [|auto]. destruct (mem x l) eqn:M; [apply mem_In in M; contradiction|reflexivity].
Qed.
Lemma axis_nat : forall r k, (Z.of_nat k < r) -> axis r (Z.of_nat k) = Some k.
Proof. intros r k H. unfold axis. destruct (Z.leb_spec (- r) (Z.of_nat k)), (Z.ltb_spec (Z.of_nat k) r); try lia. cbn. destruct (Z.ltb_spec (Z.of_nat k) 0); [lia|]. f_equal. lia. Qed.
Lemma mapM_axis : forall r ks, Forall (fun k => Z.of_nat k < r) ks -> mapM (axis r) (map Z.of_nat ks) = Some ks.
Proof. intros r ks H. induction H as [|k ks K _ IH]; [reflexivity|]. cbn [map mapM]. rewrite axis_nat by auto. cbn [obind]. rewrite IH. reflexivity. Qed.
Lemma position_nth : forall l k d, NoDup l -> (k < length l)%nat -> position (nth k l d) l = k.
Proof.
  induction l as [|x l IH]; intros k d ND K; cbn [length] in K; [lia|]. inversion ND as [|? ? NI ND']; subst. destruct k as [|k]; cbn [nth position].
  - now rewrite Nat.eqb_refl.
  - destruct (Nat.eqb_spec (nth k l d) x) as [<-|_]; [exfalso; apply NI, nth_In; lia|]. f_equal. apply IH; auto; lia.
Qed.
Lemma position_In : forall l x, In x l -> (position x l < length l)%nat /\ forall d, nth (position x l) l d = x.
Proof.
  induction l as [|y l IH]; intros x I; [destruct I|]. cbn [position length]. destruct (Nat.eqb_spec x y) as [->|N]; [split; [lia|reflexivity]|].
  destruct I as [->|I]; [contradiction|]. destruct (IH x I) as [L E]. split; [lia|exact E].
Qed.
(** A permutation of all the axes, given as natural numbers. *)
Lemma permute_is : forall A (t : tensor A) ks, Permutation (seq 0 (length (sizes t))) ks ->
  permute t (map Z.of_nat ks) = Some (reindex (map (get (sizes t)) ks) (fun ix => map (fun k => get ix (position k ks)) (seq 0 (length (sizes t)))) t).
Proof.
  intros A t ks P. pose proof (Permutation_length P) as L. rewrite seq_length in L. unfold permute. rewrite zlen_map.
  replace (zlen ks =? rank t) with true by (symmetry; apply Z.eqb_eq; unfold rank, zlen; lia).
  rewrite mapM_axis. 2:{ apply Forall_forall. intros k K. apply Permutation_sym in P. apply (Permutation_in _ P) in K. apply in_seq in K. unfold rank, zlen. lia. }
  cbn [obind]. replace (distinct ks) with true; [reflexivity|]. symmetry. apply distinct_NoDup. apply (Permutation_NoDup P). apply seq_NoDup.
Qed.
(** It reads axis ks[j] at component j. *)
Lemma permuted_same : forall A (t : tensor A) ks g, Permutation (seq 0 (length (sizes t))) ks ->
  (forall ix, within (map (get (sizes t)) ks) ix -> length (g ix) = length (sizes t)) ->
  (forall ix j, within (map (get (sizes t)) ks) ix -> (j < length ks)%nat -> get (g ix) (nth j ks O) = get ix j) ->
  agree (permute t (map Z.of_nat ks)) (Some (reindex (map (get (sizes t)) ks) g t)).
Proof.
  intros A t ks g P HL HG. rewrite permute_is by auto. cbn [agree]. apply reindex_same. intros ix W. pose proof (Permutation_length P) as L. rewrite seq_length in L.
  apply get_ext; [rewrite map_length, seq_length; symmetry; auto|]. rewrite map_length, seq_length. intros k K. rewrite get_map_seq by auto.
  assert (I : In k ks) by (apply (Permutation_in _ P); apply in_seq; lia). destruct (position_In ks k I) as [PL PE].
  rewrite <- (HG ix (position k ks)) by auto. rewrite PE. reflexivity.
Qed.
Lemma numpy_t_proof : forall A (t : tensor A), agree (dec_numpy_t t) (Some (reversed t)).
Proof.
  intros A t. unfold dec_numpy_t. rewrite <- map_rev. set (n := length (sizes t)).
  assert (M : map (get (sizes t)) (rev (seq 0 n)) = rev (sizes t)).
  { rewrite map_rev. f_equal. apply get_ext; [rewrite map_length, seq_length; reflexivity|]. rewrite map_length, seq_length. intros k K. now rewrite get_map_seq by auto. }
  unfold reversed. rewrite <- M. apply permuted_same.
  - apply Permutation_rev.
  - intros ix W. apply within_length in W. rewrite map_length, rev_length, seq_length in W. rewrite rev_length. exact W.
  - intros ix j W J. rewrite rev_length, seq_length in J. apply within_length in W. rewrite map_length, rev_length, seq_length in W.
    rewrite rev_nth by (rewrite seq_length; auto). rewrite seq_length, seq_nth by lia. unfold get. rewrite rev_nth by lia. f_equal. lia.
Qed.

(** * movedim *)
Lemma map_insert : forall B C (f : B -> C) k x l, map f (insert k x l) = insert k (f x) (map f l).
Proof. intros B C f k x l. revert k. induction l as [|y l IH]; intros [|k]; cbn; auto. now rewrite IH. Qed.
Lemma map_remove : forall B C (f : B -> C) k l, map f (remove k l) = remove k (map f l).
Proof. intros B C f k l. revert k. induction l as [|y l IH]; intros [|k]; cbn; auto. now rewrite IH. Qed.
Lemma insert_Permutation : forall B k (x : B) l, Permutation (x :: l) (insert k x l).
Proof.
  intros B k x l. revert k. induction l as [|y l IH]; intros [|k]; cbn; auto. eapply perm_trans; [apply perm_swap|]. constructor. apply IH.
Qed.
Lemma insert_remove_nth : forall B k (l : list B) d, (k < length l)%nat -> insert k (nth k l d) (remove k l) = l.
Proof. intros B k l d. revert k. induction l as [|y l IH]; intros [|k] H; cbn [length] in H; try lia; cbn; [destruct l; reflexivity|]. f_equal. apply IH. lia. Qed.
Lemma nth_insert : forall B k (x d : B) l j, (k <= length l)%nat ->
  nth j (insert k x l) d = if Nat.ltb j k then nth j l d else if Nat.eqb j k then x else nth (pred j) l d.
Proof.
  induction k as [|k IH]; intros x d l j H.
  - destruct j; destruct l; reflexivity.
  - destruct l as [|y l]; cbn [length] in H; [lia|]. cbn [insert]. destruct j as [|j]; [reflexivity|].
    cbn [nth]. rewrite IH by lia. change (S j <? S k)%nat with (j <? k)%nat. change (S j =? S k)%nat with (j =? k)%nat.
    destruct (Nat.ltb_spec j k); [reflexivity|]. destruct (Nat.eqb_spec j k); [reflexivity|]. destruct j; [lia|reflexivity].
Qed.
Lemma nth_remove : forall B k (l : list B) d j, nth j (remove k l) d = if Nat.ltb j k then nth j l d else nth (S j) l d.
Proof.
  induction k as [|k IH]; intros l d j.
  - destruct l; destruct j; reflexivity.
  - destruct l as [|y l]; [cbn [remove]; destruct (j <? S k)%nat; destruct j; reflexivity|].
    cbn [remove]. destruct j as [|j]; [reflexivity|]. cbn [nth]. rewrite IH. reflexivity.
Qed.
Lemma axis_positive : forall r d, match axis r d with
  | Some k => is_valid_dim (to_positive_dim d r) r = true /\ Z.to_nat (to_positive_dim d r) = k
  | None => 0 <= r -> is_valid_dim (to_positive_dim d r) r = false
  end.
Proof.
  intros r d. unfold axis, is_valid_dim, to_positive_dim.
  destruct (Z.leb_spec (- r) d), (Z.ltb_spec d r), (Z.leb_spec 0 d), (Z.ltb_spec d 0); cbn [andb]; try lia;
    destruct (Z.leb_spec 0 (d + r)), (Z.ltb_spec (d + r) r), (Z.leb_spec 0 d), (Z.ltb_spec d r); cbn [andb]; try lia; auto.
Qed.
Lemma permute_movedim : forall A (t : tensor A) s d, (s < length (sizes t))%nat -> (d < length (sizes t))%nat ->
  agree (permute t (dims_order s d (length (sizes t))))
        (Some (reindex (insert d (get (sizes t) s) (remove s (sizes t))) (fun ix => insert s (get ix d) (remove d ix)) t)).
Proof.
  intros A t s d Hs Hd. set (n := length (sizes t)) in *.
  assert (EO : dims_order s d n = map Z.of_nat (insert d s (remove s (seq 0 n)))) by (unfold dims_order; now rewrite map_insert, map_remove).
  set (ks := insert d s (remove s (seq 0 n))) in *.
  assert (P : Permutation (seq 0 n) ks).
  { eapply perm_trans; [|apply insert_Permutation]. rewrite <- (insert_remove_nth nat s (seq 0 n) O) at 1 by (rewrite seq_length; auto).
    rewrite seq_nth by auto. apply Permutation_sym, insert_Permutation. }
  assert (Lr : length (remove s (seq 0 n)) = pred n) by (rewrite length_remove; rewrite seq_length; auto).
  assert (M : map (get (sizes t)) ks = insert d (get (sizes t) s) (remove s (sizes t))).
  { unfold ks. rewrite map_insert, map_remove. f_equal. f_equal. apply get_ext; [rewrite map_length, seq_length; reflexivity|]. rewrite map_length, seq_length. intros k K. now rewrite get_map_seq by auto. }
  rewrite EO, <- M. apply permuted_same; [exact P| |].
  - intros ix W. apply within_length in W. rewrite map_length in W. unfold ks in W. rewrite length_insert, Lr in W. idx.
  - intros ix j W J. apply within_length in W. rewrite map_length in W. unfold ks in W, J. rewrite length_insert, Lr in W, J.
    unfold ks. rewrite nth_insert by lia. rewrite nth_remove.
    assert (LX : length (remove d ix) = pred n) by (rewrite length_remove; lia).
    assert (G : forall q, (q < n)%nat -> nth q (seq 0 n) O = q) by (intros q Q; rewrite seq_nth by auto; reflexivity).
    destruct (Nat.ltb_spec j d).
    + destruct (Nat.ltb_spec j s).
      * rewrite G by lia. rewrite get_insert by lia. destruct (Nat.ltb_spec j s); [|lia]. rewrite get_remove. destruct (Nat.ltb_spec j d); [reflexivity|lia].
      * rewrite G by lia. rewrite get_insert by lia. destruct (Nat.ltb_spec (S j) s); [lia|]. destruct (Nat.eqb_spec (S j) s); [lia|]. cbn [pred].
        rewrite get_remove. destruct (Nat.ltb_spec j d); [reflexivity|lia].
    + destruct (Nat.eqb_spec j d) as [->|Nj].
      * rewrite get_insert by lia. rewrite Nat.ltb_irrefl, Nat.eqb_refl. reflexivity.
      * rewrite nth_remove. destruct (Nat.ltb_spec (pred j) s).
        -- rewrite G by lia. rewrite get_insert by lia. destruct (Nat.ltb_spec (pred j) s); [|lia]. rewrite get_remove. destruct (Nat.ltb_spec (pred j) d); [lia|]. f_equal. lia.
        -- rewrite G by lia. rewrite get_insert by lia. destruct (Nat.ltb_spec (S (pred j)) s); [lia|]. destruct (Nat.eqb_spec (S (pred j)) s); [lia|]. cbn [pred].
           rewrite get_remove. destruct (Nat.ltb_spec (pred j) d); [lia|]. f_equal. lia.
Qed.
Lemma movedim_proof : forall A (t u : tensor A) src dst, torch_movedim t src dst = Some u -> exists v, dec_movedim t src dst = Some (Some v) /\ same v u.
Proof.
  intros A t u src dst H. unfold torch_movedim in H. destruct (axis (rank t) src) as [s|] eqn:As; [|discriminate]. cbn [obind] in H.
  destruct (axis (rank t) dst) as [d|] eqn:Ad; [|discriminate]. cbn [obind] in H. injection H as <-.
  pose proof (axis_rank _ _ _ _ As) as Ks. pose proof (axis_rank _ _ _ _ Ad) as Kd. unfold dec_movedim. destruct (Z.leb_spec (rank t) 1) as [R|R].
  - exists t. split; [reflexivity|]. unfold rank, zlen in R. destruct (sizes t) as [|n [|m r]] eqn:S; cbn [length] in *; try lia. assert (s = O) by lia. assert (d = O) by lia. subst.
    split; [now rewrite S|]. rewrite S. intros ix W. inversion W as [|? i ? l ? W1]; subst. inversion W1; subst. reflexivity.
  - pose proof (axis_positive (rank t) src) as Ps. rewrite As in Ps. destruct Ps as [Vs Es]. pose proof (axis_positive (rank t) dst) as Pd. rewrite Ad in Pd. destruct Pd as [Vd Ed].
    rewrite Vs, Vd, Es, Ed. cbn [andb]. pose proof (permute_movedim A t s d Ks Kd) as P. destruct (permute t _) as [v|]; [|destruct P]. exists v. split; [reflexivity|exact P].
Qed.
Lemma movedim_refused : forall A (t : tensor A) src dst, 2 <= rank t -> (dec_movedim t src dst = None <-> torch_movedim t src dst = None).
Proof.
  intros A t src dst R. split; intros H.
  - unfold dec_movedim in H. destruct (Z.leb_spec (rank t) 1) as [|_]; [lia|]. unfold torch_movedim.
    pose proof (axis_positive (rank t) src) as Ps. pose proof (axis_positive (rank t) dst) as Pd.
    destruct (axis (rank t) src); [|reflexivity]. destruct (axis (rank t) dst); [|reflexivity]. destruct Ps as [Vs _], Pd as [Vd _]. rewrite Vs, Vd in H. discriminate.
  - unfold dec_movedim. destruct (Z.leb_spec (rank t) 1) as [|_]; [lia|]. unfold torch_movedim in H.
    pose proof (axis_positive (rank t) src) as Ps. pose proof (axis_positive (rank t) dst) as Pd.
    destruct (axis (rank t) src); [|rewrite Ps by lia; reflexivity]. destruct (axis (rank t) dst); [discriminate|]. rewrite Pd by lia. now rewrite andb_false_r.
Qed.

(** * rot90 *)
Lemma get_swap : forall a b l j, (a < length l)%nat -> (b < length l)%nat -> get (swap a b l) j = if Nat.eqb j b then get l a else if Nat.eqb j a then get l b else get l j.
Proof.
  intros a b l j Ha Hb. unfold swap. rewrite !get_put, length_put. apply Nat.ltb_lt in Ha, Hb. rewrite Ha, Hb, !andb_true_r. reflexivity.
Qed.
Lemma length_swap : forall a b l, length (swap a b l) = length l.
Proof. intros. unfold swap. now rewrite !length_put. Qed.
Lemma swap_swap : forall a b l, (a < length l)%nat -> (b < length l)%nat -> swap a b (swap a b l) = l.
Proof.
  intros a b l Ha Hb. apply get_ext; rewrite ?length_swap; auto. intros j _. rewrite get_swap by (rewrite length_swap; auto). rewrite !get_swap by auto.
  rewrite !Nat.eqb_refl. destruct (Nat.eqb_spec j b) as [->|]; [|destruct (Nat.eqb_spec j a) as [->|]; [|reflexivity]].
  - destruct (Nat.eqb_spec a b) as [->|]; reflexivity.
  - reflexivity.
Qed.
Lemma within_swap : forall a b s ix, (a < length s)%nat -> (b < length s)%nat -> within (swap a b s) ix -> within s (swap a b ix).
Proof.
  intros a b s ix Ha Hb W. apply within_iff in W. rewrite length_swap in W. destruct W as [L G]. apply within_iff. rewrite length_swap. split; [auto|].
  intros k K. rewrite get_swap by lia. pose proof (G a Ha) as Ga. pose proof (G b Hb) as Gb. pose proof (G k K) as Gk. rewrite get_swap in Ga, Gb, Gk by lia.
  rewrite !Nat.eqb_refl in *. destruct (Nat.eqb_spec k b) as [->|]; [destruct (Nat.eqb_spec a b) as [->|]; lia|]. destruct (Nat.eqb_spec k a) as [->|]; lia.
Qed.
Lemma get_quarter_index : forall (s ix : list Z) a b j, (a < length ix)%nat -> (b < length ix)%nat ->
  get (put (put ix a (get ix b)) b (get s b - 1 - get ix a)) j = if Nat.eqb j b then get s b - 1 - get ix a else if Nat.eqb j a then get ix b else get ix j.
Proof. intros s ix a b j Ha Hb. rewrite !get_put, length_put. apply Nat.ltb_lt in Ha, Hb. rewrite Ha, Hb, !andb_true_r. reflexivity. Qed.
Lemma rot90_turns : forall A (t : tensor A) d0 d1 a b k, axis (rank t) d0 = Some a -> axis (rank t) d1 = Some b -> a <> b ->
  exists v, dec_rot90 t k d0 d1 = Some v /\ same v (turned (Z.to_nat (k mod 4)) a b t).
Proof.
  intros A t d0 d1 a b k Aa Ab N. pose proof (axis_rank _ _ _ _ Aa) as Ka. pose proof (axis_rank _ _ _ _ Ab) as Kb.
  assert (Ek : Z.rem (Z.rem k 4 + 4) 4 = k mod 4).
  { rewrite (Z.rem_mod_nonneg (Z.rem k 4 + 4) 4) by (pose proof (Z.rem_bound_abs k 4 ltac:(lia)); lia).
    pose proof (Z.quot_rem' k 4) as Q. replace (Z.rem k 4 + 4) with (k + (1 - k ÷ 4) * 4) by lia. apply Z_mod_plus_full. }
  unfold dec_rot90. rewrite Ek. clear Ek. pose proof (Z.mod_pos_bound k 4 ltac:(lia)) as B. generalize dependent (k mod 4). clear k. intros k B.
  assert (F : forall j, get (swap a b (sizes t)) j = if Nat.eqb j b then get (sizes t) a else if Nat.eqb j a then get (sizes t) b else get (sizes t) j) by (intros j; apply get_swap; auto).
  destruct (Z.eqb_spec k 1) as [->|N1]; [|destruct (Z.eqb_spec k 2) as [->|N2]; [|destruct (Z.eqb_spec k 3) as [->|N3]]].
  - destruct (flip_one A t d1 b Ab) as [u [Eu Su]]. rewrite Eu. cbn [obind]. unfold transpose. rewrite (same_rank _ _ _ Su).
    change (rank (backwards b t)) with (rank t). rewrite Aa, Ab. cbn [obind]. eexists. split; [reflexivity|]. destruct Su as [Ss Se].
    change (turned (Z.to_nat 1) a b t) with (quarter a b t). split; cbn [sizes reindex quarter elt]; [now rewrite Ss|]. rewrite Ss. cbn [sizes backwards reindex]. intros ix W.
    rewrite Se by (rewrite Ss; cbn [sizes backwards reindex]; apply within_swap; auto). cbn [elt backwards reindex]. f_equal. pose proof (within_length _ _ W) as L. rewrite length_swap in L.
    apply get_ext; rewrite !length_put; [apply length_swap|]. rewrite length_swap. intros j J. rewrite get_quarter_index by lia. rewrite get_put, !get_swap, length_swap by lia.
    rewrite Nat.eqb_refl. replace (b <? length ix)%nat with true by (symmetry; apply Nat.ltb_lt; lia). rewrite andb_true_r.
    destruct (Nat.eqb_spec j b); [reflexivity|]. reflexivity.
  - destruct (flip_two A t d0 d1 a b Aa Ab N) as [u [Eu Su]]. exists u. split; [exact Eu|]. eapply same_trans; [exact Su|].
    change (turned (Z.to_nat 2) a b t) with (quarter a b (quarter a b t)). unfold quarter. cbn [reindex sizes]. split; cbn [sizes elt reindex]; [now rewrite swap_swap|].
    intros ix W. f_equal. pose proof (within_length _ _ W) as L. apply get_ext; rewrite !length_put; [reflexivity|]. intros j J.
    assert (LL : forall x y, length (put (put ix a x) b y) = length ix) by (intros; now rewrite !length_put).
    repeat (rewrite get_quarter_index; [|rewrite ?LL; lia|rewrite ?LL; lia]). rewrite !F, !Nat.eqb_refl. destruct (Nat.eqb_spec b a); [congruence|]. destruct (Nat.eqb_spec a b); [congruence|].
    rewrite !get_put, length_put. replace (b <? length ix)%nat with true by (symmetry; apply Nat.ltb_lt; lia). replace (a <? length ix)%nat with true by (symmetry; apply Nat.ltb_lt; lia). rewrite !andb_true_r.
    destruct (Nat.eqb_spec j b) as [->|]; [lia|]. destruct (Nat.eqb_spec j a) as [->|]; [lia|reflexivity].
  - destruct (flip_one A t d0 a Aa) as [u [Eu Su]]. rewrite Eu. cbn [obind]. unfold transpose. rewrite (same_rank _ _ _ Su).
    change (rank (backwards a t)) with (rank t). rewrite Aa, Ab. cbn [obind]. eexists. split; [reflexivity|]. destruct Su as [Ss Se].
    change (turned (Z.to_nat 3) a b t) with (quarter a b (quarter a b (quarter a b t))). unfold quarter. cbn [reindex sizes].
    split; cbn [sizes reindex elt]; [rewrite Ss, (swap_swap a b (sizes t)) by auto; reflexivity|]. rewrite Ss. cbn [sizes backwards reindex]. intros ix W.
    rewrite Se by (rewrite Ss; cbn [sizes backwards reindex]; apply within_swap; auto). cbn [elt backwards reindex]. f_equal. pose proof (within_length _ _ W) as L. rewrite length_swap in L.
    apply get_ext; rewrite !length_put; [apply length_swap|]. rewrite length_swap. intros j J.
    assert (LL : forall l x y, length (put (put l a x) b y) = length l) by (intros; now rewrite !length_put).
    repeat (rewrite get_quarter_index; [|rewrite ?LL; lia|rewrite ?LL; lia]). rewrite swap_swap by auto. rewrite !F, get_put, !get_swap, length_swap by lia. rewrite !Nat.eqb_refl.
    destruct (Nat.eqb_spec b a); [congruence|]. destruct (Nat.eqb_spec a b); [congruence|].
    replace (a <? length ix)%nat with true by (symmetry; apply Nat.ltb_lt; lia). rewrite andb_true_r.
    repeat rewrite get_put. repeat rewrite length_put. replace (b <? length ix)%nat with true by (symmetry; apply Nat.ltb_lt; lia). replace (a <? length ix)%nat with true by (symmetry; apply Nat.ltb_lt; lia). rewrite !andb_true_r, !Nat.eqb_refl.
    destruct (Nat.eqb_spec j b) as [->|]; [destruct (Nat.eqb_spec b a); [congruence|lia]|]. destruct (Nat.eqb_spec j a) as [->|]; [lia|reflexivity].
  - assert (k = 0) by lia. subst. exists t. split; [reflexivity|apply same_refl].
Qed.

(** * stack *)
Lemma sizes_eqb_eq : forall a b, sizes_eqb a b = true <-> a = b.
Proof.
  induction a as [|x a IH]; intros [|y b]; cbn; try (split; [discriminate|discriminate]); [tauto|]. rewrite andb_true_iff, IH, Z.eqb_eq. split; [intros [-> ->]; reflexivity|intros E; injection E; auto].
Qed.
Definition lifted {A} (k : nat) (t : tensor A) : tensor A := reindex (insert k 1 (sizes t)) (remove k) t.
Lemma pick_lifted : forall A k (r : list (tensor A)) (t d : tensor A) s ix, (k <= length s)%nat -> sizes t = s -> Forall (fun u => sizes u = s) r ->
  (k < length ix)%nat -> 0 <= get ix k < zlen (t :: r) ->
  pick k (lifted k t) (map (lifted k) r) ix = elt (nth (Z.to_nat (get ix k)) (t :: r) d) (remove k ix).
Proof.
  intros A k r. induction r as [|u r IH]; intros t d s ix K St Sr Kx B.
  - cbn [map pick]. assert (E : get ix k = 0) by (cbn in B; unfold zlen in B; cbn in B; lia). rewrite E. reflexivity.
  - inversion_clear Sr as [|? ? Su Sr']. cbn [map pick]. cbn [lifted sizes reindex]. rewrite St, get_insert_same by auto. rewrite zlen_cons in B. destruct (Z.ltb_spec (get ix k) 1) as [L|G].
    + assert (E : get ix k = 0) by lia. rewrite E. reflexivity.
    + rewrite (IH u d s) by (rewrite ?length_put, ?get_put_same by auto; auto; lia). rewrite get_put_same, remove_put by auto.
      replace (Z.to_nat (get ix k)) with (S (Z.to_nat (get ix k - 1))) by lia. reflexivity.
Qed.
Lemma sum_lifted : forall A k (ts : list (tensor A)) s, (k <= length s)%nat -> Forall (fun u => sizes u = s) ts -> sumZ (map (fun u => get (sizes u) k) (map (lifted k) ts)) = zlen ts.
Proof.
  intros A k ts s K H. induction H as [|u ts Su _ IH]; [reflexivity|]. cbn [map sumZ fold_right]. fold (sumZ (map (fun u => get (sizes u) k) (map (lifted k) ts))). rewrite IH, zlen_cons.
  cbn [lifted sizes reindex]. rewrite Su, get_insert_same by auto. lia.
Qed.
Lemma put_insert_zero : forall (s : list Z) k, (k <= length s)%nat -> put (insert k 1 s) k 0 = insert k 0 s.
Proof. intros. now apply put_insert. Qed.
Lemma insert_inj : forall k x (a b : list Z), (k <= length a)%nat -> (k <= length b)%nat -> insert k x a = insert k x b -> a = b.
Proof. intros k x a b Ka Kb E. rewrite <- (remove_insert Z k x a Ka), <- (remove_insert Z k x b Kb). now rewrite E. Qed.
Lemma axis_same : forall r r' d k, r = r' -> axis r d = Some k -> axis r' d = Some k.
Proof. intros. now subst. Qed.
Lemma rank_lifted : forall A k (t : tensor A), rank (lifted k t) = rank t + 1.
Proof. intros. unfold rank, zlen. cbn [lifted sizes reindex]. rewrite length_insert. lia. Qed.
Lemma unsqueeze_lifted : forall A (t : tensor A) d k, axis (rank t + 1) d = Some k -> unsqueeze t d = Some (lifted k t) /\ (k <= length (sizes t))%nat.
Proof. intros A t d k H. unfold unsqueeze. rewrite H. split; [reflexivity|]. apply axis_lt in H. unfold rank, zlen in H. lia. Qed.
Lemma mapM_unsqueeze_same : forall A (ts : list (tensor A)) d k s, Forall (fun u => sizes u = s) ts -> axis (zlen s + 1) d = Some k -> mapM (fun t => unsqueeze t d) ts = Some (map (lifted k) ts).
Proof.
  intros A ts d k s H Ax. induction H as [|u ts Su _ IH]; [reflexivity|]. cbn [mapM map]. destruct (unsqueeze_lifted A u d k) as [E _]; [unfold rank; now rewrite Su|]. rewrite E. cbn [obind]. rewrite IH. reflexivity.
Qed.
Lemma mapM_Forall2 : forall B C (f : B -> option C) l r, mapM f l = Some r -> Forall2 (fun x y => f x = Some y) l r.
Proof.
  intros B C f l. induction l as [|x l IH]; intros r H; cbn [mapM] in H; [injection H as <-; constructor|].
  destruct (f x) as [y|] eqn:E; [|discriminate]. cbn [obind] in H. destruct (mapM f l) as [ys|] eqn:E'; [|discriminate]. cbn [obind] in H. injection H as <-. constructor; auto.
Qed.
Lemma stack_proof : forall A (ts : list (tensor A)) dim, match dec_stack ts dim with None => torch_stack ts dim = None | Some x => agree x (torch_stack ts dim) end.
Proof.
  intros A ts dim. unfold dec_stack. set (ok := fun t : tensor A => match axis (rank t + 1) dim with Some _ => true | None => false end).
  destruct ts as [|t r]; [cbn; exact Logic.I|]. destruct (forallb ok (t :: r)) eqn:F.
  - cbn [forallb] in F. apply andb_true_iff in F. destruct F as [Ft Fr]. unfold ok in Ft. cbn [torch_stack]. destruct (axis (rank t + 1) dim) as [k|] eqn:Ax; [|discriminate]. cbn [obind].
    destruct (unsqueeze_lifted A t dim k Ax) as [_ K].
    destruct (forallb (fun u => sizes_eqb (sizes u) (sizes t)) r) eqn:Q.
    + assert (S : Forall (fun u => sizes u = sizes t) (t :: r)).
      { constructor; [reflexivity|]. apply Forall_forall. rewrite forallb_forall in Q. intros u U. apply sizes_eqb_eq. auto. }
      rewrite (mapM_unsqueeze_same A (t :: r) dim k (sizes t) S Ax). cbn [obind map]. unfold cat. rewrite rank_lifted, Ax. cbn [obind].
      inversion_clear S as [|? ? _ Sr].
      replace (forallb _ (map (lifted k) r)) with true.
      2:{ symmetry. apply forallb_forall. intros u U. apply in_map_iff in U. destruct U as [v [<- V]]. apply sizes_eqb_eq. cbn [lifted sizes reindex]. rewrite Forall_forall in Sr. rewrite (Sr v V). reflexivity. }
      cbn [agree]. change (lifted k t :: map (lifted k) r) with (map (lifted k) (t :: r)). split; cbn [sizes elt].
      * rewrite (sum_lifted A k (t :: r) (sizes t) K) by (constructor; auto). cbn [lifted sizes reindex]. now rewrite put_insert.
      * intros ix W. rewrite (sum_lifted A k (t :: r) (sizes t) K) in W by (constructor; auto). cbn [lifted sizes reindex] in W. rewrite put_insert in W by auto.
        apply within_iff in W. rewrite length_insert in W. destruct W as [L G]. specialize (G k ltac:(lia)). rewrite get_insert_same in G by auto.
        apply (pick_lifted A k r t t (sizes t)); auto; lia.
    + cbn [agree]. destruct (mapM (fun t0 => unsqueeze t0 dim) (t :: r)) as [us|] eqn:M; [|exact Logic.I]. cbn [obind]. apply mapM_Forall2 in M. inversion M as [|? u0 ? us' E0 Mr]; subst.
      destruct (unsqueeze_lifted A t dim k Ax) as [E _]. rewrite E in E0. injection E0 as <-. unfold cat. rewrite rank_lifted, Ax. cbn [obind].
      destruct (forallb _ us') eqn:Q'; [|exact Logic.I]. exfalso. rewrite forallb_forall in Q'. assert (T : forallb (fun u => sizes_eqb (sizes u) (sizes t)) r = true); [|congruence].
      clear Q M Fr. induction Mr as [|v w r us' Ev _ IH]; [reflexivity|]. cbn [forallb]. rewrite IH by (intros x X; apply Q'; now right). rewrite andb_true_r.
      specialize (Q' w (or_introl eq_refl)). apply sizes_eqb_eq in Q'. apply sizes_eqb_eq. unfold unsqueeze in Ev. destruct (axis (rank v + 1) dim) as [kv|] eqn:Av; [|discriminate]. cbn [obind] in Ev. injection Ev as <-.
      cbn [lifted sizes reindex] in Q'. assert (LE : length (sizes v) = length (sizes t)) by (apply (f_equal (@length Z)) in Q'; rewrite !length_put, !length_insert in Q'; lia).
      assert (kv = k) by (unfold rank, zlen in *; rewrite LE in Av; congruence). subst kv. rewrite !put_insert in Q' by lia. apply (insert_inj k 0); auto; lia.
  - cbn [torch_stack]. destruct (axis (rank t + 1) dim) as [k|] eqn:Ax; [|reflexivity]. cbn [obind].
    destruct (forallb (fun u => sizes_eqb (sizes u) (sizes t)) r) eqn:Q; [|reflexivity]. exfalso. rewrite forallb_forall in Q. assert (T : forallb ok (t :: r) = true); [|congruence].
    apply forallb_forall. intros u [<-|U]; unfold ok; [now rewrite Ax|]. apply Q in U. apply sizes_eqb_eq in U. unfold rank in *. rewrite U. now rewrite Ax.
Qed.

(** * Concatenations of the same tensors *)
Lemma pick_same : forall A k s (r r' : list (tensor A)) (t t' : tensor A) ix, Forall2 same r r' -> same t t' -> Forall (fun u => put (sizes u) k 0 = put s k 0) (t :: r) ->
  (k < length s)%nat -> length ix = length s -> (forall j, (j < length s)%nat -> j <> k -> 0 <= get ix j < get s j) ->
  0 <= get ix k < sumZ (map (fun u => get (sizes u) k) (t :: r)) -> pick k t r ix = pick k t' r' ix.
Proof.
  intros A k s r r' t t' ix H. revert t t' ix. induction H as [|u u' r r' Su _ IH]; intros t t' ix [St Et] F K L G B; cbn [map sumZ fold_right] in B.
  - cbn [pick]. apply Et. inversion_clear F as [|? ? F0 _]. apply within_iff.
    assert (Lt : length (sizes t) = length s) by (apply (f_equal (@length Z)) in F0; now rewrite !length_put in F0).
    split; [lia|]. intros j J. destruct (Nat.eq_dec j k) as [->|N]; [lia|]. apply (f_equal (fun l => get l j)) in F0. rewrite !get_put_other in F0 by auto. rewrite F0. apply G; lia.
  - inversion_clear F as [|? ? F0 Fr]. assert (Lt : length (sizes t) = length s) by (apply (f_equal (@length Z)) in F0; now rewrite !length_put in F0).
    cbn [pick]. rewrite <- St. destruct (Z.ltb_spec (get ix k) (get (sizes t) k)) as [Lx|Gx].
    + apply Et. apply within_iff. split; [lia|]. intros j J. destruct (Nat.eq_dec j k) as [->|N]; [lia|]. apply (f_equal (fun l => get l j)) in F0. rewrite !get_put_other in F0 by auto. rewrite F0. apply G; lia.
    + apply IH; auto.
      * now rewrite length_put.
      * intros j J N. rewrite get_put_other by auto. apply G; auto.
      * rewrite get_put_same by lia. cbn [map sumZ fold_right]. lia.
Qed.
Lemma cat_same : forall A (us vs : list (tensor A)) d, Forall2 same us vs -> agree (cat us d) (cat vs d).
Proof.
  intros A us vs d H. destruct H as [|t t' r r' S R]; [exact Logic.I|]. unfold cat. rewrite <- (same_rank _ _ _ S). destruct (axis (rank t) d) as [k|] eqn:Ax; [|exact Logic.I]. cbn [obind].
  pose proof (axis_rank _ _ _ _ Ax) as K.
  assert (EF : forallb (fun u => sizes_eqb (put (sizes u) k 0) (put (sizes t') k 0)) r' = forallb (fun u => sizes_eqb (put (sizes u) k 0) (put (sizes t) k 0)) r).
  { destruct S as [Ss _]. rewrite <- Ss. clear - R. induction R as [|u u' r r' [Su _] _ IH]; [reflexivity|]. cbn [forallb]. now rewrite IH, Su. }
  rewrite EF. destruct (forallb _ r) eqn:F; [|exact Logic.I]. cbn [agree].
  assert (ES : map (fun u => get (sizes u) k) (t' :: r') = map (fun u => get (sizes u) k) (t :: r)).
  { destruct S as [Ss _]. cbn [map]. rewrite <- Ss. f_equal. clear - R. induction R as [|u u' r r' [Su _] _ IH]; [reflexivity|]. cbn [map]. now rewrite IH, Su. }
  split; cbn [sizes elt]; [rewrite ES; destruct S as [Ss _]; now rewrite Ss|]. intros ix W. apply within_iff in W. rewrite length_put in W. destruct W as [L G].
  apply (pick_same A k (sizes t)); auto.
  - constructor; [reflexivity|]. apply Forall_forall. rewrite forallb_forall in F. intros u U. apply sizes_eqb_eq. auto.
  - intros j J N. specialize (G j J). rewrite get_put_other in G by auto. exact G.
  - specialize (G k K). rewrite get_put_same in G by auto. exact G.
Qed.

(** * hstack and column_stack *)
Lemma atleast_1d_proof : forall A (t : tensor A), agree (dec_atleast_1d t) (Some (vector t)).
Proof.
  intros A t. unfold dec_atleast_1d, vector. destruct (sizes t) eqn:S; [|apply same_refl]. unfold unsqueeze, rank. rewrite S. cbn. split; [reflexivity|].
  intros ix W. cbn in W. inversion W as [|? i ? l ? W1]; subst. inversion W1; subst. reflexivity.
Qed.
Lemma atleast_2d_proof : forall A (t : tensor A), agree (dec_atleast_2d t) (Some (matrix_row t)).
Proof.
  intros A t. unfold dec_atleast_2d, dec_atleast_1d, matrix_row, rank. destruct (sizes t) as [|n [|m r]] eqn:S.
  - cbn. unfold unsqueeze, rank. rewrite S. cbn. split; [reflexivity|]. intros ix W. cbn in W. inversion W as [|? i ? l ? W1]; subst. inversion W1 as [|? j ? l2 ? W2]; subst. inversion W2; subst. reflexivity.
  - cbn. unfold unsqueeze, rank. rewrite S. cbn. split; [reflexivity|]. intros ix W. cbn in W. inversion W as [|? i ? l ? W1]; subst. inversion W1 as [|? j ? l2 ? W2]; subst. inversion W2; subst. reflexivity.
  - rewrite !zlen_cons. pose proof (zlen_nonneg _ r). destruct (Z.leb_spec 2 (1 + (1 + zlen r))); [|lia]. apply same_refl.
Qed.
Lemma hstack_vectors : forall A (ts : list (tensor A)), exists us, mapM (fun t => if rank t <? 1 then dec_atleast_1d t else Some t) ts = Some us /\ Forall2 same us (map vector ts).
Proof.
  intros A ts. induction ts as [|t ts [us [E S]]]; [exists []; split; [reflexivity|constructor]|]. cbn [mapM map].
  assert (H : exists u, (if rank t <? 1 then dec_atleast_1d t else Some t) = Some u /\ same u (vector t)).
  { destruct (Z.ltb_spec (rank t) 1) as [R|R].
    - pose proof (atleast_1d_proof A t) as P. destruct (dec_atleast_1d t) as [u|]; [|destruct P]. exists u. auto.
    - exists t. split; [reflexivity|]. unfold vector. destruct (sizes t) eqn:Zs; [unfold rank, zlen in R; rewrite Zs in R; cbn [length] in R; lia|]. apply same_refl. }
  destruct H as [u [Eu Su]]. rewrite Eu. cbn [obind]. rewrite E. cbn [obind]. exists (u :: us). split; [reflexivity|constructor; auto].
Qed.
Lemma hstack_proof : forall A (t : tensor A) ts, sizes t <> [] -> agree (dec_hstack (t :: ts)) (torch_hstack (t :: ts)).
Proof.
  intros A t ts N. unfold dec_hstack, torch_hstack. destruct (hstack_vectors A (t :: ts)) as [us [E S]]. rewrite E. cbn [obind].
  assert (V : vector t = t) by (unfold vector; destruct (sizes t); [contradiction|reflexivity]). rewrite V. destruct (rank t =? 1); apply cat_same; exact S.
Qed.
Lemma hstack_scalar : forall A (t : tensor A) ts, sizes t = [] -> dec_hstack (t :: ts) = None.
Proof.
  intros A t ts N. unfold dec_hstack. destruct (hstack_vectors A (t :: ts)) as [us [E S]]. rewrite E. cbn [obind]. unfold rank. rewrite N. change (zlen (@nil Z) =? 1) with false. cbv iota.
  cbn [map] in S. inversion S as [|u v us' vs' Su R]; subst. unfold cat. rewrite (same_rank _ _ _ Su). unfold vector. rewrite N. reflexivity.
Qed.
Lemma to_2d_proof : forall A known (t : tensor A), sized t -> exists u, to_2d known t = Some u /\ same u (matrix_column t).
Proof.
  intros A known t Z. unfold to_2d, matrix_column, sized in *. destruct (sizes t) as [|n [|m r]] eqn:S.
  - unfold view. rewrite S. cbn. eexists. split; [reflexivity|]. split; [reflexivity|]. intros ix W. reflexivity.
  - inversion_clear Z as [|? ? Zn _]. unfold view. rewrite S.
    assert (I : infer (prodZ [n]) [if known then n else -1; 1] = Some [n; 1]).
    { unfold infer. destruct known.
      - cbn [filter]. destruct (Z.eqb_spec n (-1)); [lia|]. change (1 =? -1) with false. cbn [negb]. cbn [existsb]. destruct (Z.ltb_spec n 0); [lia|]. cbn [orb length prodZ fold_right].
        change (1 <? 0) with false. cbn [orb]. destruct (Z.eqb_spec (n * (1 * 1)) (n * 1)); [reflexivity|lia].
      - cbn. rewrite Z.mod_1_r. cbn. rewrite Z.div_1_r. change (1 * 1 =? 0) with false. cbn. now rewrite Z.mul_1_r. }
    rewrite I. cbn [obind]. eexists. split; [reflexivity|]. split; [reflexivity|]. cbn [sizes reindex elt]. intros ix W. inversion W as [|? i ? l Bi W1]; subst. inversion W1 as [|? j ? l2 ? W2]; subst. inversion W2; subst.
    f_equal. cbn [ravel unravel prodZ fold_right firstn]. rewrite Z.div_1_r. f_equal. lia.
  - exists t. split; [reflexivity|apply same_refl].
Qed.
Lemma column_stack_proof : forall A (ts : list (bool * tensor A)), Forall (fun kt => sized (snd kt)) ts -> agree (dec_column_stack ts) (torch_column_stack (map snd ts)).
Proof.
  intros A ts H. unfold dec_column_stack, torch_column_stack.
  assert (E : exists us, mapM (fun kt => to_2d (fst kt) (snd kt)) ts = Some us /\ Forall2 same us (map matrix_column (map snd ts))).
  { induction H as [|[known t] ts Z _ [us [E S]]]; [exists []; split; [reflexivity|constructor]|]. cbn [mapM map fst snd]. destruct (to_2d_proof A known t Z) as [u [Eu Su]]. rewrite Eu. cbn [obind]. rewrite E. cbn [obind].
    exists (u :: us). split; [reflexivity|constructor; auto]. }
  destruct E as [us [E S]]. rewrite E. cbn [obind]. apply cat_same. exact S.
Qed.

(** * roll *)
Definition effective (n shift : Z) : Z := if Z.abs shift <=? n then shift else 0.
Lemma slice_bounds : forall A (t : tensor A) d k st sp s e, axis (rank t) d = Some k -> bound (get (sizes t) k) st 0 = s -> bound (get (sizes t) k) sp (get (sizes t) k) = e -> s <= e ->
  exists u, slice t d st sp 1 = Some u /\ same u (reindex (put (sizes t) k (e - s)) (fun ix => put ix k (s + get ix k)) t).
Proof.
  intros A t d k st sp s e Ax Bs Be L. unfold slice. rewrite Ax. cbn [obind]. change (1 <=? 0) with false. cbv iota. rewrite Bs, Be.
  assert (EL : (if s <? e then (e - s + 1 - 1) / 1 else 0) = e - s) by (destruct (Z.ltb_spec s e); rewrite ?Z.div_1_r; lia).
  rewrite EL. eexists. split; [reflexivity|]. apply reindex_same. intros ix _. f_equal. lia.
Qed.
Lemma rolled_same : forall A k s (t u : tensor A), same t u -> same (rolled k s t) (rolled k s u).
Proof.
  intros A k s t u [Ss Se]. split; cbn [rolled sizes reindex elt]; [auto|]. intros ix W. rewrite Ss. apply Se. apply within_iff in W. destruct W as [L G]. apply within_iff. rewrite length_put. split; [auto|].
  intros j J. rewrite get_put. destruct (Nat.eqb_spec j k) as [->|]; cbn [andb]; [|apply G; auto]. replace (k <? length ix)%nat with true by (symmetry; apply Nat.ltb_lt; lia).
  rewrite Ss. apply Z.mod_pos_bound. specialize (G k J). rewrite Ss in G. lia.
Qed.
Lemma imitate_roll_proof : forall A (t : tensor A) s d k, sized t -> axis (rank t) d = Some k ->
  exists v, imitate_roll t s d = Some v /\ same v (rolled k (effective (get (sizes t) k) s) t).
Proof.
  intros A t s d k Z Ax. pose proof (axis_rank _ _ _ _ Ax) as K. pose proof (sized_get A t k Z) as N. set (n := get (sizes t) k) in *.
  set (p := bound n (Some (- s)) 0). assert (Ep : 0 <= p <= n) by (subst p; unfold bound; lia).
  unfold imitate_roll. destruct (slice_bounds A t d k (Some (- s)) None p n Ax eq_refl eq_refl ltac:(lia)) as [a [Ea [Sa Xa]]]. rewrite Ea. cbn [obind].
  assert (B0 : bound n (Some 0) 0 = 0) by (apply bound_in; lia).
  destruct (slice_bounds A t d k (Some 0) (Some (- s)) 0 p Ax B0 eq_refl ltac:(lia)) as [b [Eb [Sb Xb]]]. rewrite Eb. cbn [obind].
  cbn [sizes reindex] in Sa, Sb. unfold cat. assert (Ra : rank a = rank t) by (unfold rank, zlen; rewrite Sa, length_put; reflexivity). rewrite Ra, Ax. cbn [obind forallb].
  assert (PP : forall x y, put (put (sizes t) k x) k y = put (sizes t) k y).
  { intros x y. apply get_ext; rewrite !length_put; [reflexivity|]. intros j J. rewrite !get_put, length_put. destruct (Nat.eqb j k); cbn [andb]; [destruct (k <? length (sizes t))%nat; reflexivity|reflexivity]. }
  rewrite Sa, Sb, !PP. replace (sizes_eqb (put (sizes t) k 0) (put (sizes t) k 0)) with true by (symmetry; apply sizes_eqb_eq; reflexivity). cbn [andb].
  eexists. split; [reflexivity|].
  assert (ES : put (sizes t) k (sumZ (map (fun u : tensor A => get (sizes u) k) [a; b])) = sizes t).
  { cbn [map sumZ fold_right]. rewrite Sa, Sb, !get_put_same by auto. replace (n - p + (p - 0 + 0)) with (get (sizes t) k) by (subst n; lia). apply put_get_self. }
  split; cbn [sizes elt rolled reindex]; [exact ES|]. rewrite ES. intros ix W. pose proof W as W0. apply within_iff in W. destruct W as [L G]. pose proof (G k K) as Gk. fold n in Gk |- *.
  assert (EM : (get ix k - effective n s) mod n = (get ix k + p) mod n).
  { unfold effective, p, bound. destruct (Z.leb_spec (Z.abs s) n).
    - destruct (Z.ltb_spec (- s) 0).
      + replace (get ix k + Z.max 0 (Z.min n (- s + n))) with (get ix k - s + 1 * n) by lia. symmetry. apply Z_mod_plus_full.
      + f_equal. lia.
    - destruct (Z.ltb_spec (- s) 0).
      + f_equal. lia.
      + replace (get ix k + Z.max 0 (Z.min n (- s))) with (get ix k - 0 + 1 * n) by lia. symmetry. apply Z_mod_plus_full. }
  cbn [pick]. rewrite Sa, get_put_same by auto. rewrite EM. destruct (Z.ltb_spec (get ix k) (n - p)) as [Lx|Gx].
  - rewrite Xa.
    + cbn [elt reindex]. f_equal. f_equal. rewrite Z.mod_small; lia.
    + rewrite Sa. apply within_iff. rewrite length_put. split; [auto|]. intros j J. rewrite get_put. destruct (Nat.eqb_spec j k) as [->|]; cbn [andb]; [|apply G; auto].
      replace (k <? length (sizes t))%nat with true by (symmetry; apply Nat.ltb_lt; lia). lia.
  - rewrite Xb.
    + cbn [elt reindex]. f_equal. rewrite get_put_same by lia.
      apply get_ext; rewrite !length_put; [reflexivity|]. intros j J. rewrite !get_put, length_put. destruct (Nat.eqb_spec j k); cbn [andb]; [|reflexivity].
      replace (k <? length ix)%nat with true by (symmetry; apply Nat.ltb_lt; lia). replace (get ix k + p) with (get ix k - (n - p) + 1 * n) by lia. rewrite Z_mod_plus_full, Z.mod_small; lia.
    + rewrite Sb. apply within_iff. rewrite !length_put. split; [auto|]. intros j J. rewrite !get_put. destruct (Nat.eqb_spec j k) as [->|]; cbn [andb]; [|apply G; auto].
      replace (k <? length (sizes t))%nat with true by (symmetry; apply Nat.ltb_lt; lia). replace (k <? length ix)%nat with true by (symmetry; apply Nat.ltb_lt; lia). lia.
Qed.
Definition effective_shifts {A} (t : tensor A) (shifts dims : list Z) : list Z :=
  map (fun sd => match axis (rank t) (snd sd) with Some k => effective (get (sizes t) k) (fst sd) | None => fst sd end) (combine shifts dims).
Lemma imitate_roll_bad : forall A (t : tensor A) s d, axis (rank t) d = None -> imitate_roll t s d = None.
Proof. intros A t s d H. unfold imitate_roll, slice. now rewrite H. Qed.
Lemma roll_steps : forall A shifts dims (t u : tensor A), sized t -> same u t -> length shifts = length dims ->
  agree (foldM (fun t sd => imitate_roll t (fst sd) (snd sd)) (combine shifts dims) u) (torch_roll t (effective_shifts t shifts dims) dims).
Proof.
  intros A shifts. induction shifts as [|s shifts IH]; intros [|d dims] t u Z S L; cbn [length] in L; try lia; [exact S|].
  cbn [combine foldM fst snd effective_shifts map]. unfold torch_roll. cbn [combine foldM fst snd]. rewrite <- (same_rank _ _ _ S). destruct (axis (rank u) d) as [k|] eqn:Ax.
  - cbn [obind]. assert (Zu : sized u) by (destruct S as [Ss _]; unfold sized in *; now rewrite Ss). destruct (imitate_roll_proof A u s d k Zu Ax) as [v [Ev Sv]]. rewrite Ev. cbn [obind].
    assert (Es : sizes u = sizes t) by (destruct S; auto). rewrite Es in Sv.
    set (t' := rolled k (effective (get (sizes t) k) s) t). specialize (IH dims t' v). assert (Rk : rank t' = rank t) by reflexivity.
    assert (EE : effective_shifts t' shifts dims = effective_shifts t shifts dims) by reflexivity. rewrite EE in IH. unfold torch_roll, effective_shifts in IH.
    rewrite (same_rank _ _ _ S). apply IH; [exact Z| |lia]. eapply same_trans; [exact Sv|]. apply rolled_same. exact S.
  - cbn [obind]. rewrite imitate_roll_bad by auto. exact Logic.I.
Qed.
Lemma roll_proof : forall A (t : tensor A) shifts dims, sized t -> length shifts = length dims ->
  exists x, dec_roll t shifts dims = Some x /\ agree x (torch_roll t (effective_shifts t shifts dims) dims).
Proof.
  intros A t shifts dims Z L. unfold dec_roll. replace (zlen shifts =? zlen dims) with true by (symmetry; apply Z.eqb_eq; unfold zlen; lia).
  eexists. split; [reflexivity|]. apply roll_steps; auto using same_refl.
Qed.

(** * prims.squeeze *)
Definition named (k : nat) (ds : list Z) : bool := existsb (Z.eqb (Z.of_nat k)) ds.
Lemma named_In : forall k ds, named k ds = true <-> In (Z.of_nat k) ds.
Proof. intros k ds. unfold named. rewrite existsb_exists. split; [intros [x [I E]]; apply Z.eqb_eq in E; now subst|intros I; exists (Z.of_nat k); split; [auto|apply Z.eqb_refl]]. Qed.
Lemma without_ext : forall B (l : list B) k ds ds', (forall j, named j ds = named j ds') -> without k ds l = without k ds' l.
Proof. intros B l. induction l as [|x l IH]; intros k ds ds' H; [reflexivity|]. cbn [without]. fold (named k ds) (named k ds'). rewrite H. destruct (named k ds'); [auto|]. f_equal. auto. Qed.
Lemma zeros_ext : forall r k ds ds' ix, (forall j, named j ds = named j ds') -> zeros_in r k ds ix = zeros_in r k ds' ix.
Proof. intros r. induction r as [|r IH]; intros k ds ds' ix H; [reflexivity|]. cbn [zeros_in]. fold (named k ds) (named k ds'). rewrite H. destruct (named k ds'); [f_equal; auto|]. destruct ix; [reflexivity|]. f_equal. auto. Qed.
Lemma without_none : forall B (l : list B) k ds, Forall (fun d => d < Z.of_nat k) ds -> without k ds l = l.
Proof.
  intros B l. induction l as [|x l IH]; intros k ds H; [reflexivity|]. cbn [without]. fold (named k ds). destruct (named k ds) eqn:N.
  - apply named_In in N. rewrite Forall_forall in H. specialize (H _ N). lia.
  - f_equal. apply IH. eapply Forall_impl; [|exact H]. cbn. intros; lia.
Qed.
Lemma zeros_none : forall r k ds ix, length ix = r -> Forall (fun d => d < Z.of_nat k) ds -> zeros_in r k ds ix = ix.
Proof.
  intros r. induction r as [|r IH]; intros k ds [|i ix] L H; cbn [length] in L; try lia; [reflexivity|]. cbn [zeros_in]. fold (named k ds). destruct (named k ds) eqn:N.
  - apply named_In in N. rewrite Forall_forall in H. specialize (H _ N). lia.
  - f_equal. apply IH; [lia|]. eapply Forall_impl; [|exact H]. cbn. intros; lia.
Qed.
Lemma without_remove : forall B (l : list B) d k ds, (d < length l)%nat -> Forall (fun x => x < Z.of_nat (k + d)) ds -> without k ds (remove d l) = without k (Z.of_nat (k + d) :: ds) l.
Proof.
  intros B l. induction l as [|x l IH]; intros d k ds L H; cbn [length] in L; [lia|]. destruct d as [|d].
  - cbn [remove without existsb]. rewrite Nat.add_0_r in *. rewrite Z.eqb_refl. cbn [orb]. rewrite without_none by auto. symmetry. apply without_none. constructor; [lia|]. eapply Forall_impl; [|exact H]. cbn. intros; lia.
  - cbn [remove without existsb]. destruct (Z.eqb_spec (Z.of_nat k) (Z.of_nat (k + S d))); [lia|]. cbn [orb]. replace (k + S d)%nat with (S k + d)%nat in * by lia. rewrite (IH d (S k) ds) by (auto; lia).
    destruct (existsb (Z.eqb (Z.of_nat k)) ds); reflexivity.
Qed.
Lemma zeros_insert : forall (l : list Z) d k ds ix, (d <= length l)%nat -> Forall (fun x => x < Z.of_nat (k + d)) ds -> length ix = length (without k ds l) ->
  insert d 0 (zeros_in (length l) k ds ix) = zeros_in (S (length l)) k (Z.of_nat (k + d) :: ds) ix.
Proof.
  intros l. induction l as [|x l IH]; intros d k ds ix L H Lx.
  - cbn [length] in *. assert (d = O) by lia. subst. cbn [zeros_in insert existsb]. rewrite Nat.add_0_r, Z.eqb_refl. reflexivity.
  - destruct d as [|d].
    + rewrite Nat.add_0_r in *. rewrite without_none in Lx by auto. rewrite zeros_none by auto.
      assert (Hz : zeros_in (S (length (x :: l))) k (Z.of_nat k :: ds) ix = 0 :: zeros_in (length (x :: l)) (S k) (Z.of_nat k :: ds) ix).
      { cbn [length]. remember (S (length l)) as q. cbn [zeros_in existsb]. rewrite Z.eqb_refl. reflexivity. }
      rewrite Hz, zeros_none; [reflexivity|auto|]. constructor; [lia|]. eapply Forall_impl; [|exact H]. cbn. intros; lia.
    + cbn [length] in L. cbn [without] in Lx. replace (k + S d)%nat with (S k + d)%nat in * by lia.
      assert (Hz : forall ix, zeros_in (S (length (x :: l))) k (Z.of_nat (S k + d) :: ds) ix =
        if existsb (Z.eqb (Z.of_nat k)) ds then 0 :: zeros_in (S (length l)) (S k) (Z.of_nat (S k + d) :: ds) ix
        else match ix with i :: ix => i :: zeros_in (S (length l)) (S k) (Z.of_nat (S k + d) :: ds) ix | [] => [] end).
      { intros jx. cbn [length]. remember (S (length l)) as q. cbn [zeros_in existsb]. destruct (Z.eqb_spec (Z.of_nat k) (Z.of_nat (S k + d))); [lia|]. reflexivity. }
      rewrite Hz. cbn [length zeros_in]. destruct (existsb (Z.eqb (Z.of_nat k)) ds).
      * cbn [insert]. f_equal. apply IH; auto. lia.
      * cbn [length] in Lx. destruct ix as [|i ix]; [discriminate|]. cbn [insert]. f_equal. apply IH; auto. lia.
Qed.
Lemma within_remove_insert : forall s k ix, (k < length s)%nat -> within (remove k s) ix -> get s k = 1 -> within s (insert k 0 ix).
Proof.
  intros s k ix K W G. replace s with (insert k 1 (remove k s)); [|rewrite insert_remove_put by auto; rewrite <- G; apply put_get_self].
  apply within_insert; [rewrite length_remove by auto; lia|auto|lia].
Qed.
Fixpoint strictly_descending (l : list Z) : Prop := match l with [] => True | x :: r => Forall (fun y => y < x) r /\ strictly_descending r end.
Definition squeezable {A} (t : tensor A) (d : Z) : Prop := 0 <= d < rank t /\ get (sizes t) (Z.to_nat d) = 1.
Lemma squeeze_one_good : forall A (t : tensor A) d, squeezable t d -> squeeze_one t d = Some (Some (reindex (remove (Z.to_nat d) (sizes t)) (insert (Z.to_nat d) 0) t)).
Proof.
  intros A t d [B G]. unfold squeeze_one, to_positive_dim, is_valid_dim. destruct (Z.leb_spec 0 d); [|lia]. destruct (Z.leb_spec 0 d); [|lia]. destruct (Z.ltb_spec d (rank t)); [|lia]. cbn [andb]. rewrite G. change (1 =? 1) with true. cbv iota.
  unfold squeeze. replace (axis (rank t) d) with (Some (Z.to_nat d)) by (rewrite <- (Z2Nat.id d) at 2 by lia; symmetry; apply axis_nat; lia). cbn [obind]. rewrite G. reflexivity.
Qed.
Lemma squeeze_one_inv : forall A (t u : tensor A) d, 0 <= d -> squeeze_one t d = Some (Some u) -> squeezable t d.
Proof.
  intros A t u d B H. unfold squeeze_one, to_positive_dim, is_valid_dim in H. destruct (Z.leb_spec 0 d); [|lia]. destruct (Z.leb_spec 0 d); [|lia]. destruct (Z.ltb_spec d (rank t)); cbn [andb] in H; [|discriminate].
  destruct (Z.eqb_spec (get (sizes t) (Z.to_nat d)) 1); [|discriminate]. split; [lia|auto].
Qed.
Lemma squeezable_below : forall A (t : tensor A) d f x, squeezable t d -> x < d ->
  (squeezable (reindex (remove (Z.to_nat d) (sizes t)) f t) x <-> squeezable t x).
Proof.
  intros A t d f x [B G] L. unfold squeezable, rank, zlen in *. cbn [sizes reindex]. rewrite length_remove by lia. rewrite get_remove. split; intros [B' G'].
  - destruct (Nat.ltb_spec (Z.to_nat x) (Z.to_nat d)); [|lia]. split; [lia|auto].
  - split; [lia|]. destruct (Nat.ltb_spec (Z.to_nat x) (Z.to_nat d)); [auto|lia].
Qed.
Lemma squeeze_all_good : forall A ds (t : tensor A), strictly_descending ds -> Forall (squeezable t) ds ->
  exists v, squeeze_all t ds = Some (Some v) /\ same v (reindex (without 0 ds (sizes t)) (zeros_in (length (sizes t)) 0 ds) t).
Proof.
  intros A ds. induction ds as [|d ds IH]; intros t D F; cbn [squeeze_all].
  - exists t. split; [reflexivity|]. split; cbn [sizes elt reindex]; [now rewrite without_none|]. intros ix W. rewrite zeros_none; [reflexivity|now apply within_length|constructor].
  - destruct D as [Dd Dr]. inversion_clear F as [|? ? Fd Fr]. rewrite squeeze_one_good by auto. set (u := reindex (remove (Z.to_nat d) (sizes t)) (insert (Z.to_nat d) 0) t).
    destruct (IH u Dr) as [v [Ev Sv]]; [rewrite Forall_forall in *; intros x X; apply squeezable_below; auto|]. exists v. split; [exact Ev|]. eapply same_trans; [exact Sv|].
    destruct Fd as [B G]. unfold rank, zlen in B. assert (K : (Z.to_nat d < length (sizes t))%nat) by lia.
    assert (Fl : Forall (fun x => x < Z.of_nat (0 + Z.to_nat d)) ds) by (eapply Forall_impl; [|exact Dd]; cbn; intros; lia).
    assert (Ed : Z.of_nat (0 + Z.to_nat d) = d) by lia.
    assert (Ew : without 0 ds (remove (Z.to_nat d) (sizes t)) = without 0 (d :: ds) (sizes t)) by (rewrite (without_remove Z (sizes t) (Z.to_nat d) 0 ds) by auto; now rewrite Ed).
    split; cbn [sizes reindex u elt]; [exact Ew|]. intros ix W. f_equal. apply within_length in W.
    rewrite (zeros_insert (remove (Z.to_nat d) (sizes t)) (Z.to_nat d) 0 ds ix) by (try rewrite length_remove by auto; auto; lia). rewrite Ed. f_equal. rewrite length_remove by auto. lia.
Qed.
Lemma squeeze_all_inv : forall A ds (t u : tensor A), strictly_descending ds -> Forall (fun d => 0 <= d) ds -> squeeze_all t ds = Some (Some u) -> Forall (squeezable t) ds.
Proof.
  intros A ds. induction ds as [|d ds IH]; intros t u D P H; [constructor|]. cbn [squeeze_all] in H. destruct D as [Dd Dr]. inversion_clear P as [|? ? Pd Pr].
  destruct (squeeze_one t d) as [[w|]|] eqn:E; try discriminate. pose proof (squeeze_one_inv _ _ _ _ Pd E) as Q. constructor; [exact Q|]. rewrite squeeze_one_good in E by auto. injection E as <-.
  specialize (IH _ _ Dr Pr H). rewrite Forall_forall in *. intros x X. apply (squeezable_below A t d (insert (Z.to_nat d) 0) x Q); auto.
Qed.
Lemma place_perm : forall x l, Permutation (x :: l) (place x l).
Proof. intros x l. induction l as [|y l IH]; cbn [place]; [auto|]. destruct (y <=? x); [auto|]. eapply perm_trans; [apply perm_swap|]. constructor. exact IH. Qed.
Lemma descending_perm : forall l, Permutation l (descending l).
Proof. induction l as [|x l IH]; cbn [descending fold_right]; [constructor|]. fold (descending l). eapply perm_trans; [constructor; exact IH|apply place_perm]. Qed.
Lemma place_strict : forall x l, ~ In x l -> strictly_descending l -> strictly_descending (place x l).
Proof.
  intros x l. induction l as [|y l IH]; intros N D; cbn [place]; [cbn; auto|]. destruct D as [Dy Dl]. destruct (Z.leb_spec y x) as [L|L].
  - assert (y < x) by (cbn in N; lia). cbn [strictly_descending]. split; [|auto]. constructor; [auto|]. eapply Forall_impl; [|exact Dy]. cbn. intros; lia.
  - cbn [strictly_descending]. split; [|apply IH; [cbn in N; tauto|auto]]. rewrite Forall_forall in *. intros z Zi. apply (Permutation_in _ (Permutation_sym (place_perm x l))) in Zi. destruct Zi as [<-|Zi]; auto.
Qed.
Lemma descending_strict : forall l, NoDup l -> strictly_descending (descending l).
Proof.
  induction l as [|x l IH]; intros N; [exact Logic.I|]. inversion_clear N as [|? ? Nx Nl]. cbn [descending fold_right]. fold (descending l). apply place_strict; [|auto].
  intros I. apply Nx. apply (Permutation_in _ (Permutation_sym (descending_perm l))). exact I.
Qed.
Lemma prims_squeeze_iff : forall A (t u : tensor A) dims, prims_squeeze t dims = Some u <-> Forall (squeezable t) dims /\ u = reindex (without 0 dims (sizes t)) (zeros_in (length (sizes t)) 0 dims) t.
Proof.
  intros A t u dims. unfold prims_squeeze. destruct (forallb _ dims) eqn:F.
  - assert (Q : Forall (squeezable t) dims).
    { apply Forall_forall. rewrite forallb_forall in F. intros d I. specialize (F d I). apply andb_true_iff in F. destruct F as [F G]. apply andb_true_iff in F. unfold squeezable. apply Z.eqb_eq in G. lia. }
    split; [intros E; injection E as <-; auto|intros [_ ->]; reflexivity].
  - split; [discriminate|]. intros [Q _]. exfalso. assert (T : forallb (fun d => (0 <=? d) && (d <? rank t) && (get (sizes t) (Z.to_nat d) =? 1)) dims = true); [|congruence].
    apply forallb_forall. intros d I. rewrite Forall_forall in Q. destruct (Q d I) as [B G]. rewrite G. destruct (Z.leb_spec 0 d), (Z.ltb_spec d (rank t)); cbn; try reflexivity; lia.
Qed.
Lemma squeeze_proof : forall A (t u : tensor A) dims, NoDup dims -> prims_squeeze t dims = Some u -> exists v, dec_squeeze t dims = Some (Some v) /\ same v u.
Proof.
  intros A t u dims N H. apply prims_squeeze_iff in H. destruct H as [Q ->]. unfold dec_squeeze.
  assert (P := descending_perm dims). destruct (squeeze_all_good A (descending dims) t (descending_strict _ N)) as [v [Ev Sv]].
  { rewrite Forall_forall in *. intros x X. apply Q. apply (Permutation_in _ (Permutation_sym P)). exact X. }
  exists v. split; [exact Ev|]. assert (E : forall j, named j (descending dims) = named j dims).
  { intros j. apply eq_true_iff_eq. rewrite !named_In. split; intros I; [apply (Permutation_in _ (Permutation_sym P))|apply (Permutation_in _ P)]; exact I. }
  rewrite (without_ext _ _ 0 _ dims E) in Sv. eapply same_trans; [exact Sv|]. apply reindex_same. intros ix _. now apply zeros_ext.
Qed.
Lemma squeeze_refused : forall A (t v : tensor A) dims, NoDup dims -> Forall (fun d => 0 <= d) dims -> dec_squeeze t dims = Some (Some v) -> exists u, prims_squeeze t dims = Some u.
Proof.
  intros A t v dims N P H. unfold dec_squeeze in H. assert (Pm := descending_perm dims). apply squeeze_all_inv in H; [|now apply descending_strict|rewrite Forall_forall in *; intros x X; apply P; apply (Permutation_in _ (Permutation_sym Pm)); exact X].
  eexists. apply prims_squeeze_iff. split; [|reflexivity]. rewrite Forall_forall in *. intros x X. apply H. apply (Permutation_in _ Pm). exact X.
Qed.
