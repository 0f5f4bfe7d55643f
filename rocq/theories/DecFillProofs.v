(** Proofs about DecFillModel.v. *)
From Coq Require Import ZArith List Lia Bool.
From Verif Require Import Prelude TensorOps NumOps DecMoveSpec DecMoveProofs DecFillModel DecFillSpec.
From Verif Require DecElemProofs.
Import ListNotations.
Open Scope Z_scope.

Lemma sizes_eqb_eq : forall a b, sizes_eqb a b = true <-> a = b.
Proof.
  induction a as [|x a IH]; intros [|y b]; cbn; try (split; congruence).
  rewrite andb_true_iff, Z.eqb_eq, IH. split; [intros [-> ->]; auto|intros E; inversion E; auto].
Qed.
Lemma axis_none_mono : forall r d, axis r d = None <-> ~ (- r <= d < r).
Proof. unfold axis. intros. destruct (Z.leb_spec (- r) d), (Z.ltb_spec d r); cbn; split; try congruence; try lia; intros; exfalso; lia. Qed.
Lemma insert_eq_put : forall k (a b : list Z) x y, (k <= length a)%nat -> (k < length b)%nat ->
  (insert k x a = put b k y <-> x = y /\ a = remove k b).
Proof.
  intros k a b x y Ka Kb. rewrite <- insert_remove_put by auto. split.
  - intros H. assert (L : (k <= length (remove k b))%nat) by (rewrite length_remove by auto; lia). split.
    + rewrite <- (get_insert_same a k x) by auto. rewrite H. apply get_insert_same; auto.
    + rewrite <- (remove_insert _ k x a) by auto. rewrite H. apply remove_insert; auto.
  - intros [-> ->]. reflexivity.
Qed.
Lemma select_scatter_agree : forall A (t src : tensor A) dim index, sized t -> rank src + 1 = rank t -> index <> -1 ->
  agree (dec_select_scatter t src dim index) (torch_select_scatter t src dim index).
Proof.
  intros A t src dim index Sz R N. unfold dec_select_scatter, unsqueeze, torch_select_scatter. rewrite R.
  destruct (axis (rank t) dim) as [k|] eqn:Ax; cbn [obind]; [|exact Logic.I].
  unfold slice_scatter. rewrite Ax. cbn [obind]. change (1 <=? 0) with false. cbv iota.
  pose proof (axis_rank _ _ _ _ Ax) as K. pose proof (sized_get _ t k Sz) as P. set (n := get (sizes t) k) in *.
  cbn [sizes reindex].
  assert (Ks : (k <= length (sizes src))%nat) by (unfold rank, zlen in R; lia).
  set (s := bound n (Some index) 0). set (e := bound n (Some (index + 1)) n).
  set (len := if s <? e then (e - s + 1 - 1) / 1 else 0).
  assert (Len : len = 1 <-> - n <= index < n).
  { unfold len, s, e, bound. rewrite Z.div_1_r.
    destruct (Z.ltb_spec index 0), (Z.ltb_spec (index + 1) 0); match goal with |- context [Z.ltb ?a ?b] => destruct (Z.ltb_spec a b) end; lia. }
  destruct (sizes_eqb (insert k 1 (sizes src)) (put (sizes t) k len)) eqn:E1.
  - apply sizes_eqb_eq in E1. apply insert_eq_put in E1; auto. destruct E1 as [E1 E2].
    symmetry in E1. pose proof E1 as E1'. apply Len in E1.
    replace (- n <=? index) with true by (symmetry; apply Z.leb_le; lia).
    replace (index <? n) with true by (symmetry; apply Z.ltb_lt; lia).
    rewrite E2, (proj2 (sizes_eqb_eq _ _) eq_refl). cbn [andb].
    split; [reflexivity|]. intros ix W. cbn [elt sizes] in *.
    assert (Es : s = if index <? 0 then index + n else index) by (unfold s, bound; destruct (Z.ltb_spec index 0); lia).
    assert (Ee : e = s + 1).
    { rewrite Es. unfold e, bound. destruct (Z.ltb_spec index 0), (Z.ltb_spec (index + 1) 0); lia. }
    rewrite Z.mod_1_r, Z.eqb_refl, andb_true_r, Z.div_1_r. rewrite <- Es.
    destruct (Z.eqb_spec (get ix k) s) as [Eq|Ne].
    + replace (s <=? get ix k) with true by (symmetry; apply Z.leb_le; lia).
      replace (get ix k <? e) with true by (symmetry; apply Z.ltb_lt; lia). cbn [andb].
      unfold reindex. cbn [elt]. now rewrite remove_put.
    + replace ((s <=? get ix k) && (get ix k <? e)) with false; [reflexivity|].
      destruct (Z.leb_spec s (get ix k)), (Z.ltb_spec (get ix k) e); cbn; auto; lia.
  - destruct (Z.leb_spec (- n) index), (Z.ltb_spec index n); cbn [andb]; try exact Logic.I.
    destruct (sizes_eqb (sizes src) (remove k (sizes t))) eqn:E2; [|exact Logic.I].
    apply sizes_eqb_eq in E2. exfalso. assert (L1 : len = 1) by (apply Len; lia).
    rewrite (proj2 (sizes_eqb_eq _ _)) in E1; [discriminate|]. apply insert_eq_put; auto.
Qed.
Lemma select_scatter_last : forall A (t src u : tensor A) dim, torch_select_scatter t src dim (-1) = Some u ->
  dec_select_scatter t src dim (-1) = None.
Proof.
  intros A t src u dim H. unfold torch_select_scatter in H. destruct (axis (rank t) dim) as [k|] eqn:Ax; [|discriminate]. cbn [obind] in H.
  pose proof (axis_rank _ _ _ _ Ax) as K.
  destruct (Z.leb_spec (- get (sizes t) k) (-1)), (Z.ltb_spec (-1) (get (sizes t) k)); try discriminate. cbn [andb] in H.
  destruct (sizes_eqb (sizes src) (remove k (sizes t))) eqn:E; [|discriminate]. apply sizes_eqb_eq in E.
  unfold dec_select_scatter, unsqueeze. assert (R : rank src + 1 = rank t) by (unfold rank, zlen; rewrite E, length_remove by auto; lia).
  rewrite R, Ax. cbn [obind]. unfold slice_scatter. rewrite Ax. cbn [obind]. change (1 <=? 0) with false. cbv iota.
  cbn [sizes reindex]. set (n := get (sizes t) k) in *.
  assert (B : bound n (Some (-1 + 1)) n = 0) by (unfold bound; change (-1 + 1 <? 0) with false; cbv iota; lia). rewrite B.
  assert (B2 : 0 <= bound n (Some (-1)) 0) by (unfold bound; lia).
  destruct (Z.ltb_spec (bound n (Some (-1)) 0) 0); [lia|].
  destruct (sizes_eqb (insert k 1 (sizes src)) (put (sizes t) k 0)) eqn:E1; [|reflexivity].
  apply sizes_eqb_eq, insert_eq_put in E1; auto; [lia|]. unfold rank, zlen in R. lia.
Qed.

Lemma glu_agree : forall A (sigmoid : A -> A) (mul : A -> A -> A) t dim, sized t ->
  agree (dec_glu sigmoid mul t dim) (torch_glu sigmoid mul t dim).
Proof.
  intros A sigmoid mul t dim Sz. unfold dec_glu, torch_glu.
  destruct (axis (rank t) dim) as [k|] eqn:Ax; cbn [obind]; [|exact Logic.I].
  pose proof (axis_rank _ _ _ _ Ax) as K. pose proof (sized_get _ t k Sz) as P. set (n := get (sizes t) k) in *.
  rewrite Zeven_mod. unfold Zeq_bool. destruct (Z.eqb_spec (n mod 2) 0) as [E|E].
  2:{ destruct (Z.compare_spec (n mod 2) 0); [contradiction|exact Logic.I|exact Logic.I]. }
  rewrite E. cbn [Z.compare].
  assert (D : n = 2 * (n / 2)) by (apply Z.div_exact; lia). set (h := n / 2) in *.
  unfold torch_narrow. rewrite Ax. cbn [obind]. fold n.
  change (0 <? 0) with false. cbv iota. change (0 <=? 0) with true.
  replace (h <? 0) with false by (symmetry; apply Z.ltb_ge; lia).
  replace (0 <=? h) with true by (symmetry; apply Z.leb_le; lia).
  replace (0 + h <=? n) with true by (symmetry; apply Z.leb_le; lia).
  replace (h + h <=? n) with true by (symmetry; apply Z.leb_le; lia). cbn [andb obind].
  unfold map2. unfold map1 at 1. unfold reindex at 1 2. cbn [sizes]. rewrite DecElemProofs.broadcast_same.
  split; [reflexivity|]. intros ix W. cbn [elt sizes] in *.
  rewrite !DecElemProofs.at_own by exact W. cbn [elt map1 reindex]. f_equal.
  - rewrite Z.add_0_l. now rewrite put_get_self.
  - now rewrite Z.add_comm.
Qed.

Lemma eye_proof : forall A (zero one : A) n m,
  match dec_eye_m zero one n m with Some t => 0 <= n /\ 0 <= m /\ is_eye zero one n m t | None => n < 0 \/ m < 0 end.
Proof.
  intros A zero one n m. unfold dec_eye_m, arange. destruct (Z.ltb_spec n 0); [cbn; auto|]. destruct (Z.ltb_spec m 0); [cbn; auto|].
  cbn [obind]. unfold unsqueeze, rank, zlen. cbn [sizes length Z.of_nat]. change (axis (Z.of_nat 1 + 1) (-1)) with (Some 1%nat).
  cbn [obind]. unfold map2, reindex. cbn [sizes insert].
  assert (B : broadcast [n; 1] [m] = Some [n; m]).
  { unfold broadcast. cbn [rev app stretch]. destruct (Z.eqb_spec 1 m) as [<-|]; reflexivity. }
  rewrite B. cbn [obind]. split; [auto|]. split; [auto|]. split; [reflexivity|]. intros i j I J.
  cbn [map1 elt sizes]. unfold at_broadcast. cbn [elt sizes length Nat.sub skipn from remove get nth]. unfold get. cbn [nth].
  change (1 =? 1) with true. cbv iota.
  assert (Ei : (if n =? 1 then 0 else i) = i) by (destruct (Z.eqb_spec n 1); lia).
  assert (Ej : (if m =? 1 then 0 else j) = j) by (destruct (Z.eqb_spec m 1); lia).
  rewrite Ei, Ej. destruct (Z.eqb_spec i j); split; intros; congruence.
Qed.

Lemma from_app : forall s ix, within s ix -> forall c, from (s ++ [1]) (ix ++ [c]) = ix ++ [0].
Proof.
  intros s ix W. induction W as [|n i s ix B W IH]; intros c; cbn [app from]; [reflexivity|]. rewrite IH.
  destruct (Z.eqb_spec n 1); [f_equal; lia|reflexivity].
Qed.
Lemma insert_end : forall (s : list Z) x, insert (length s) x s = s ++ [x].
Proof. induction s as [|y s IH]; intros x; cbn; [reflexivity|]. now rewrite IH. Qed.
Lemma remove_end : forall (s : list Z) x, remove (length s) (s ++ [x]) = s.
Proof. induction s as [|y s IH]; intros x; cbn; [reflexivity|]. now rewrite IH. Qed.
Lemma one_hot_proof : forall (t : tensor Z) num,
  match dec_one_hot t num with Some u => 0 <= num /\ is_one_hot t num u | None => num < 0 end.
Proof.
  intros t num. unfold dec_one_hot, arange. destruct (Z.ltb_spec num 0); [cbn; auto|]. cbn [obind].
  unfold unsqueeze. assert (Ax : axis (rank t + 1) (rank t) = Some (length (sizes t))).
  { unfold rank, zlen. apply axis_nat. lia. }
  rewrite Ax. cbn [obind]. unfold map2, reindex. cbn [sizes]. rewrite insert_end.
  assert (B : broadcast (sizes t ++ [1]) [num] = Some (sizes t ++ [num])).
  { unfold broadcast. rewrite rev_app_distr. cbn [rev app stretch]. rewrite DecElemProofs.stretch_nil.
    destruct (Z.eqb_spec 1 num) as [<-|]; cbn [option_map]; [|change (1 =? 1) with true; cbn [option_map]]; cbn [rev]; now rewrite rev_involutive. }
  rewrite B. cbn [obind]. split; [auto|]. split; [reflexivity|]. intros ix c W C.
  cbn [map1 elt sizes]. unfold at_broadcast. cbn [elt sizes]. pose proof (within_length _ _ W) as L.
  rewrite !app_length, L. cbn [length].
  replace (length (sizes t) + 1 - (length (sizes t) + 1))%nat with O by lia. cbn [skipn]. rewrite from_app by auto.
  rewrite <- L at 1. rewrite remove_end.
  replace (length (sizes t) + 1 - 1)%nat with (length ix) by lia. rewrite skipn_app, skipn_all, Nat.sub_diag. cbn [app skipn from].
  replace (if num =? 1 then 0 else c) with c by (destruct (Z.eqb_spec num 1); lia). reflexivity.
Qed.

Lemma diagonal_proof : forall A (t : tensor A) offset, rank t = 2 -> exists v, diagonal t offset 0 1 = Some v /\ is_diagonal t offset v.
Proof.
  intros A t offset R. unfold diagonal. rewrite R. change (2 =? 2) with true. change (axis 2 0) with (Some 0%nat). change (axis 2 1) with (Some 1%nat). cbn [obind Nat.eqb]. eexists. split; [reflexivity|]. unfold is_diagonal. eexists. split; [reflexivity|].
  split; [lia|]. cbn zeta. split.
  - intros i I. lia.
  - intros i I. cbn [elt put]. unfold get. cbn [nth]. f_equal. f_equal; [lia|]. f_equal. lia.
Qed.
Lemma diagonal_unique : forall A (t : tensor A) offset v w, is_diagonal t offset v -> is_diagonal t offset w -> same v w.
Proof.
  intros A t offset v w (l & Sv & L0 & Hl & Ev) (m & Sw & M0 & Hm & Ew). cbn zeta in *.
  assert (E : l = m).
  { destruct (Z.lt_trichotomy l m) as [C|[C|C]]; [|exact C|].
    - assert (X := proj1 (Hm l ltac:(lia)) C). apply Hl in X; lia.
    - assert (X := proj1 (Hl m ltac:(lia)) C). apply Hm in X; lia. }
  subst m. split; [congruence|]. intros ix W. rewrite Sv in W. inversion W as [|? i ? r B Wr]; subst. inversion Wr; subst.
  now rewrite Ev, Ew.
Qed.
Lemma diag_vector : forall A (zero : A) (t : tensor A) n offset, sizes t = [n] -> 0 <= n ->
  exists u, dec_diag zero t offset = Some (Some u) /\ is_diag_matrix zero t offset u.
Proof.
  intros A zero t n offset Sn N. unfold dec_diag, diag_embed, rank, zlen. rewrite Sn. change (zlen [n]) with 1. change (axis 2 (-2)) with (Some 0%nat). change (axis 2 (-1)) with (Some 1%nat). change (Z.of_nat (length [n]) =? 1) with true. cbn [obind Nat.eqb]. eexists. split; [reflexivity|].
  unfold is_diag_matrix. rewrite Sn. cbn [sizes elt get nth]. unfold get. cbn [nth]. split; [reflexivity|]. split.
  - exists n. split; [auto|]. split; [auto|]. cbn zeta. unfold get. cbn [nth sizes elt]. split; [intros i I; lia|].
    intros i I. match goal with |- context [?a =? offset] => destruct (Z.eqb_spec a offset); [|lia] end. f_equal. f_equal. lia.
  - intros i j I J Ne. cbn [elt]. cbn [nth]. destruct (Z.eqb_spec (j - i) offset); [lia|reflexivity].
Qed.

(** * Reading back a slice that was scattered *)
Lemma stride_in : forall s e step i, 0 < step -> s < e -> 0 <= i < (e - s + step - 1) / step -> s + i * step < e.
Proof.
  intros s e step i P C I. assert (H : step * ((e - s + step - 1) / step) <= e - s + step - 1) by (apply Z.mul_div_le; lia). nia.
Qed.
Lemma bound_range : forall n b default, 0 <= n -> 0 <= default <= n -> 0 <= bound n b default <= n.
Proof. intros n [i|] default N D; unfold bound; [|auto]. destruct (Z.ltb_spec i 0); lia. Qed.
Lemma scatter_then_slice : forall A (t src u : tensor A) d start stop step, sized t ->
  slice_scatter t src d start stop step = Some u -> exists v, slice u d start stop step = Some v /\ same v src.
Proof.
  intros A t src u d start stop step Sz H. unfold slice_scatter in H. destruct (axis (rank t) d) as [k|] eqn:Ax; [|discriminate]. cbn [obind] in H.
  destruct (Z.leb_spec step 0) as [|P]; [discriminate|].
  pose proof (axis_rank _ _ _ _ Ax) as K. pose proof (sized_get _ t k Sz) as Pn. set (n := get (sizes t) k) in *.
  set (s := bound n start 0) in *. set (e := bound n stop n) in *. set (len := if s <? e then (e - s + step - 1) / step else 0) in *.
  cbv zeta in H. destruct (sizes_eqb (sizes src) (put (sizes t) k len)) eqn:E; [|discriminate]. apply sizes_eqb_eq in E. injection H as <-.
  unfold slice, rank. cbn [sizes]. fold (rank t). rewrite Ax. cbn [obind]. fold n. cbv zeta. fold s e. fold len.
  destruct (Z.leb_spec step 0); [lia|]. eexists. split; [reflexivity|]. split; [cbn [sizes reindex]; congruence|].
  intros ix W. cbn [sizes reindex elt] in *. pose proof (within_length _ _ W) as L. rewrite length_put in L.
  apply within_iff in W. destruct W as [_ G]. rewrite length_put in G. specialize (G k K). rewrite get_put_same in G by auto.
  rewrite get_put_same by lia. unfold len in G. destruct (Z.ltb_spec s e) as [C|C]; [|lia].
  pose proof (stride_in s e step _ P C G) as B.
  replace (s + get ix k * step - s) with (get ix k * step) by lia. rewrite Z.mod_mul, Z.div_mul by lia.
  replace (s <=? s + get ix k * step) with true by (symmetry; apply Z.leb_le; nia).
  replace (s + get ix k * step <? e) with true by (symmetry; apply Z.ltb_lt; lia). cbn [andb]. rewrite Z.eqb_refl.
  assert (Pp : forall l x y, put (put l k x) k y = put l k y).
  { intros l x y. apply get_ext; [now rewrite !length_put|]. intros j J. rewrite !get_put, !length_put. destruct (Nat.eqb j k && Nat.ltb k (length l))%bool; reflexivity. }
  rewrite Pp, put_get_self. reflexivity.
Qed.
Lemma scatter_elsewhere : forall A (t src u : tensor A) d k start stop step, axis (rank t) d = Some k ->
  slice_scatter t src d start stop step = Some u ->
  sizes u = sizes t /\
  forall ix, within (sizes t) ix -> elt u ix = elt t ix \/
    exists jx, within (sizes src) jx /\ elt u ix = elt src jx /\ ix = put jx k (bound (get (sizes t) k) start 0 + get jx k * step).
Proof.
  intros A t src u d k start stop step Ax H. unfold slice_scatter in H. rewrite Ax in H. cbn [obind] in H.
  destruct (Z.leb_spec step 0) as [|P]; [discriminate|]. cbv zeta in H.
  pose proof (axis_rank _ _ _ _ Ax) as K. set (n := get (sizes t) k) in *.
  set (s := bound n start 0) in *. set (e := bound n stop n) in *. set (len := if s <? e then (e - s + step - 1) / step else 0) in *.
  destruct (sizes_eqb (sizes src) (put (sizes t) k len)) eqn:E; [|discriminate]. apply sizes_eqb_eq in E. injection H as <-.
  split; [reflexivity|]. intros ix W. cbn [elt].
  destruct ((s <=? get ix k) && (get ix k <? e) && ((get ix k - s) mod step =? 0)) eqn:C; [right|auto].
  apply andb_true_iff in C. destruct C as [C C3]. apply andb_true_iff in C. destruct C as [C1 C2].
  apply Z.leb_le in C1. apply Z.ltb_lt in C2. apply Z.eqb_eq in C3.
  assert (D : get ix k - s = step * ((get ix k - s) / step)) by (apply Z.div_exact; lia).
  set (q := (get ix k - s) / step) in *. pose proof (within_length _ _ W) as L.
  exists (put ix k q). split; [|split; [reflexivity|]].
  - rewrite E. apply within_iff. apply within_iff in W. destruct W as [_ G]. rewrite !length_put. split; [lia|]. intros j J.
    rewrite !get_put. replace (Nat.ltb k (length ix)) with true by (symmetry; apply Nat.ltb_lt; lia).
    replace (Nat.ltb k (length (sizes t))) with true by (symmetry; apply Nat.ltb_lt; lia). rewrite !andb_true_r.
    destruct (Nat.eqb_spec j k) as [->|]; [|apply G; auto].
    unfold len. destruct (Z.ltb_spec s e); [|lia]. split; [nia|]. apply Z.div_le_lower_bound with (a := e - s + step - 1) (b := step) (q := q + 1) in P; [lia|nia].
  - rewrite get_put_same by lia.
    assert (Pp : forall l x y, put (put l k x) k y = put l k y).
    { intros l x y. apply get_ext; [now rewrite !length_put|]. intros j J. rewrite !get_put, !length_put. destruct (Nat.eqb j k && Nat.ltb k (length l))%bool; reflexivity. }
    rewrite Pp. replace (s + q * step) with (get ix k) by lia. now rewrite put_get_self.
Qed.
Lemma scatter_same : forall A (t v : tensor A) d start stop step, sized t ->
  slice t d start stop step = Some v -> exists u, slice_scatter t v d start stop step = Some u /\ same u t.
Proof.
  intros A t v d start stop step Sz H. unfold slice in H. destruct (axis (rank t) d) as [k|] eqn:Ax; [|discriminate]. cbn [obind] in H.
  destruct (Z.leb_spec step 0) as [|P]; [discriminate|]. cbv zeta in H.
  pose proof (axis_rank _ _ _ _ Ax) as K. pose proof (sized_get _ t k Sz) as Pn. set (n := get (sizes t) k) in *.
  set (s := bound n start 0) in *. set (e := bound n stop n) in *. set (len := if s <? e then (e - s + step - 1) / step else 0) in *.
  injection H as <-. unfold slice_scatter. rewrite Ax. cbn [obind]. fold n. cbv zeta. fold s e. fold len.
  destruct (Z.leb_spec step 0); [lia|]. cbn [sizes reindex]. rewrite (proj2 (sizes_eqb_eq _ _) eq_refl). eexists. split; [reflexivity|].
  split; [reflexivity|]. intros ix W. cbn [sizes elt reindex] in *. pose proof (within_length _ _ W) as L.
  destruct ((s <=? get ix k) && (get ix k <? e) && ((get ix k - s) mod step =? 0)) eqn:C; [|reflexivity].
  apply andb_true_iff in C. destruct C as [_ C]. apply Z.eqb_eq in C. rewrite get_put_same by lia.
  assert (D : get ix k - s = step * ((get ix k - s) / step)) by (apply Z.div_exact; lia).
  assert (Pp : forall l x y, put (put l k x) k y = put l k y).
  { intros l x y. apply get_ext; [now rewrite !length_put|]. intros j J. rewrite !get_put, !length_put. destruct (Nat.eqb j k && Nat.ltb k (length l))%bool; reflexivity. }
  rewrite Pp. replace (s + (get ix k - s) / step * step) with (get ix k) by lia. now rewrite put_get_self.
Qed.
Lemma trace_proof : forall A add (zero : A) (t : tensor A) n m, sizes t = [n; m] ->
  dec_trace add zero t = Some (Some (fold_right add zero (map (fun i => elt t [i; i]) (zrange 0 (Z.min n m))))).
Proof.
  intros A add zero t n m Sn. unfold dec_trace. assert (R : rank t = 2) by (unfold rank, zlen; now rewrite Sn).
  destruct (diagonal_proof A t 0 R) as (v & E & l & Sv & L0 & Hl & Ev). rewrite R, E. cbn. cbv zeta in *. rewrite Sn in Hl. unfold get in Hl. cbn [nth] in Hl.
  do 2 f_equal. unfold total. rewrite Sv. unfold get. cbn [nth].
  assert (El : zrange 0 (Z.min n m) = zrange 0 l).
  { unfold zrange. f_equal. f_equal. assert (l = Z.max 0 (Z.min n m)); [|lia].
    destruct (Z.lt_trichotomy l (Z.max 0 (Z.min n m))) as [C|[C|C]]; [|exact C|].
    - assert (X : l < l) by (apply Hl; lia). lia.
    - assert (X := proj1 (Hl (Z.max 0 (Z.min n m)) ltac:(lia)) C). lia. }
  rewrite El. f_equal. apply map_ext_in. intros i I. unfold zrange in I. apply in_map_iff in I. destruct I as (j & <- & J). apply in_seq in J.
  rewrite Ev by lia. f_equal. repeat (f_equal; try lia).
Qed.
Lemma diagonal_dims : forall A (t : tensor A) offset d1 d2 v, diagonal t offset d1 d2 = Some v ->
  exists a b, rank t = 2 /\ axis 2 d1 = Some a /\ axis 2 d2 = Some b /\ a <> b /\
  (a = 0%nat -> is_diagonal t offset v) /\ (a = 1%nat -> exists u, transpose t 0 1 = Some u /\ is_diagonal u offset v).
Proof.
  intros A t offset d1 d2 v H. unfold diagonal in H. destruct (Z.eqb_spec (rank t) 2) as [R|]; [|discriminate].
  destruct (axis 2 d1) as [a|] eqn:Ea; [|discriminate]. destruct (axis 2 d2) as [b|] eqn:Eb; [|discriminate]. cbn [obind] in H.
  destruct (Nat.eqb_spec a b) as [|N]; [discriminate|]. exists a, b.
  apply axis_lt in Ea as La. apply axis_lt in Eb as Lb. do 4 (split; [assumption || reflexivity|]).
  destruct (sizes t) as [|n [|m [|? ?]]] eqn:Sn; unfold rank, zlen in R; rewrite Sn in R; cbn [length] in R; try lia.
  split; intros ->.
  - assert (b = 1%nat) by lia. subst b. destruct (diagonal_proof A t offset) as (w & Ew & Iw); [unfold rank, zlen; now rewrite Sn|].
    unfold diagonal in Ew. replace (rank t =? 2) with true in Ew by (unfold rank, zlen; now rewrite Sn).
    change (axis 2 0) with (Some 0%nat) in Ew. change (axis 2 1) with (Some 1%nat) in Ew. cbn [obind Nat.eqb] in Ew. rewrite Sn in Ew. rewrite H in Ew. injection Ew as <-. exact Iw.
  - assert (b = 0%nat) by lia. subst b. unfold transpose. replace (rank t) with 2 by (unfold rank, zlen; now rewrite Sn).
    change (axis 2 0) with (Some 0%nat). change (axis 2 1) with (Some 1%nat). cbn [obind]. eexists. split; [reflexivity|].
    injection H as <-. unfold is_diagonal. rewrite Sn. unfold get. cbn [sizes reindex swap put get nth elt]. unfold swap, get. cbn [put nth].
    eexists. split; [reflexivity|]. split; [lia|]. cbv zeta. split; [intros i I; lia|].
    intros i I. f_equal. f_equal; [lia|]. f_equal. lia.
Qed.
Lemma diag_embed_dims : forall A (zero : A) (t u : tensor A) offset d1 d2, sized t -> diag_embed zero t offset d1 d2 = Some u ->
  exists a b, rank t = 1 /\ axis 2 d1 = Some a /\ axis 2 d2 = Some b /\ a <> b /\
  (a = 0%nat -> is_diag_matrix zero t offset u) /\ (a = 1%nat -> exists v, transpose u 0 1 = Some v /\ is_diag_matrix zero t offset v).
Proof.
  intros A zero t u offset d1 d2 Sz H. unfold diag_embed in H. destruct (Z.eqb_spec (rank t) 1) as [R|]; [|discriminate].
  destruct (axis 2 d1) as [a|] eqn:Ea; [|discriminate]. destruct (axis 2 d2) as [b|] eqn:Eb; [|discriminate]. cbn [obind] in H.
  destruct (Nat.eqb_spec a b) as [|N]; [discriminate|]. exists a, b.
  apply axis_lt in Ea as La. apply axis_lt in Eb as Lb. do 4 (split; [assumption || reflexivity|]).
  destruct (sizes t) as [|n [|? ?]] eqn:Sn; unfold rank, zlen in R; rewrite Sn in R; cbn [length] in R; try lia.
  assert (Pn : 0 <= n) by (unfold sized in Sz; rewrite Sn in Sz; inversion Sz; auto).
  split; intros ->.
  - assert (b = 1%nat) by lia. subst b. destruct (diag_vector A zero t n offset Sn Pn) as (w & Ew & Iw).
    unfold dec_diag, diag_embed in Ew. replace (rank t =? 1) with true in Ew by (unfold rank, zlen; now rewrite Sn).
    change (axis 2 (-2)) with (Some 0%nat) in Ew. change (axis 2 (-1)) with (Some 1%nat) in Ew. cbn [obind Nat.eqb] in Ew. rewrite Sn in Ew. rewrite H in Ew. injection Ew as <-. exact Iw.
  - assert (b = 0%nat) by lia. subst b. injection H as <-. unfold transpose, rank, zlen. cbn [sizes length Z.of_nat].
    change (axis (Z.of_nat 2) 0) with (Some 0%nat). change (axis (Z.of_nat 2) 1) with (Some 1%nat). cbn [obind]. eexists. split; [reflexivity|].
    unfold is_diag_matrix, is_diagonal. rewrite Sn. unfold reindex, swap, get. cbn [sizes elt put nth]. split; [reflexivity|]. split.
    + exists n. split; [auto|]. split; [auto|]. cbv zeta. split; [intros i I; lia|]. intros i I.
      match goal with |- context [?a =? offset] => destruct (Z.eqb_spec a offset); [|lia] end. f_equal. f_equal. lia.
    + intros i j I J Ne. match goal with |- context [?a =? offset] => destruct (Z.eqb_spec a offset); [lia|reflexivity] end.
Qed.
