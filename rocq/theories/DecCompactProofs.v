(** Proofs about the decompositions that number the selected elements. *)
From Coq Require Import ZArith List Lia Bool.
From Verif Require Import Prelude TensorOps VecOps DecReshapeProofs DecTriProofs DecCompactSpec DecCompactModel.
From Verif Require NumOps DecElemProofs.
Import ListNotations.
Open Scope Z_scope.

(** ** Indices in row-major order *)
Lemma all_indices_unravel : forall s, Forall (fun n => 0 <= n) s -> all_indices s = map (unravel s) (zrange 0 (prodZ s)).
Proof.
  induction s as [|n r IH]; intros F; [reflexivity|]. inversion_clear F as [|? ? Fn Fr]. specialize (IH Fr).
  change (prodZ (n :: r)) with (n * prodZ r). pose proof (prodZ_nonneg r Fr) as P.
  assert (U : forall m, unravel (m :: r) = unravel (n :: r)) by reflexivity. cbn [all_indices]. rewrite IH. clear IH.
  rewrite <- (Z2Nat.id n Fn) at 1 3. clear U Fn. induction (Z.to_nat n) as [|k IH].
  - reflexivity.
  - rewrite Nat2Z.inj_succ, <- Z.add_1_r. rewrite zrange_snoc, flat_map_app, IH by lia. cbn [flat_map]. rewrite app_nil_r.
    rewrite (zrange_split 0 (Z.of_nat k * prodZ r) ((Z.of_nat k + 1) * prodZ r)) by nia. rewrite map_app. f_equal.
    replace ((Z.of_nat k + 1) * prodZ r) with (Z.of_nat k * prodZ r + prodZ r) by ring. rewrite zrange_from, !map_map.
    apply map_ext_in. intros q Q. apply in_zrange in Q. cbn [unravel]. rewrite Z.div_add, Z.mod_add, Z.div_small, Z.mod_small by lia. f_equal.
Qed.
Lemma filter_map : forall A B (f : A -> B) p l, filter p (map f l) = map f (filter (fun x => p (f x)) l).
Proof. induction l as [|x l IH]; [reflexivity|]. cbn. destruct (p (f x)); cbn; now rewrite IH. Qed.

(** ** The positions of the selected elements *)
Fixpoint pos (k : Z) (l : list bool) : list Z := match l with [] => [] | b :: r => if b then k :: pos (k + 1) r else pos (k + 1) r end.
Fixpoint prods (k : Z) (l : list bool) : list Z := match l with [] => [] | b :: r => k * long b :: prods (k + 1) r end.
Lemma prods_zip : forall l k, zip_with (fun a b => Some (a * b)) (zrange k (k + zlen l)) (map long l) = Some (prods k l).
Proof.
  induction l as [|b l IH]; intros k.
  - rewrite zlen_nil, Z.add_0_r, zrange_nil by lia. reflexivity.
  - rewrite zlen_cons. rewrite zrange_cons by (pose proof (zlen_nonneg _ l); lia). cbn [map zip_with obind].
    replace (k + (1 + zlen l)) with (k + 1 + zlen l) by ring. rewrite IH. reflexivity.
Qed.
Lemma pos_length : forall l k, zlen (pos k l) = sumZ (map long l).
Proof. induction l as [|b l IH]; intros k; [reflexivity|]. destruct b; cbn [pos map long]; unfold sumZ in *; cbn [fold_right]; rewrite ?zlen_cons, ?IH; reflexivity. Qed.
Lemma pos_bound : forall l k, (length (pos k l) <= length l)%nat.
Proof. induction l as [|b l IH]; intros k; [cbn; lia|]. specialize (IH (k + 1)). destruct b; cbn; lia. Qed.
Lemma put_app : forall a x b y, put (a ++ x :: b) (length a) y = a ++ y :: b.
Proof. induction a as [|z a IH]; intros; cbn; [reflexivity|now rewrite IH]. Qed.
Lemma put_own : forall l k, put l k (nth k l 0) = l.
Proof. induction l as [|x l IH]; intros [|k]; cbn; auto. now rewrite IH. Qed.
Lemma at_index_some : forall A (l : list A) i d, 0 <= i < zlen l -> at_index l i = Some (nth (Z.to_nat i) l d).
Proof.
  intros A l i d B. unfold at_index. destruct (Z.ltb_spec i 0); [lia|]. apply nth_error_nth'. unfold zlen in B. lia.
Qed.
Lemma at_index_none : forall A (l : list A) i, zlen l <= i -> at_index l i = None.
Proof.
  intros A l i B. unfold at_index. destruct (Z.ltb_spec i 0); [reflexivity|]. apply nth_error_None. unfold zlen in B. lia.
Qed.
Lemma scattered : forall l k done m, (length l <= m)%nat ->
  scatter_add (done ++ repeat 0 m) (clamp_min 0 (map (fun x => x - 1) (cumsum_from (zlen done) (map long l)))) (prods k l) =
  Some (done ++ pos k l ++ repeat 0 (m - length (pos k l))).
Proof.
  induction l as [|b l IH]; intros k done m M.
  - cbn. now rewrite Nat.sub_0_r.
  - destruct m as [|m]; [cbn in M; lia|]. cbn [map cumsum_from clamp_min prods scatter_add].
    change (map (Z.max 0) (map (fun x => x - 1) (cumsum_from (zlen done + long b) (map long l))))
      with (clamp_min 0 (map (fun x => x - 1) (cumsum_from (zlen done + long b) (map long l)))).
    assert (L : zlen (done ++ repeat 0 (S m)) = zlen done + Z.of_nat (S m)) by (rewrite zlen_app; unfold zlen; now rewrite repeat_length).
    pose proof (zlen_nonneg _ done) as N. unfold add_at. destruct b; cbn [long pos].
    + rewrite (at_index_some _ _ _ 0) by lia. cbn [obind]. replace (Z.max 0 (zlen done + 1 - 1)) with (zlen done) by lia.
      replace (Z.to_nat (zlen done)) with (length done) by (unfold zlen; lia). rewrite app_nth2, Nat.sub_diag by lia. cbn [repeat nth].
      rewrite put_app. replace (0 + k * 1) with k by ring.
      replace (done ++ k :: repeat 0 m) with ((done ++ [k]) ++ repeat 0 m) by (now rewrite <- app_assoc).
      replace (zlen done + 1) with (zlen (done ++ [k])) by (rewrite zlen_app; reflexivity).
      rewrite IH by (cbn in M; lia). rewrite <- app_assoc. cbn [app length Nat.sub]. reflexivity.
    + rewrite (at_index_some _ _ _ 0) by lia. cbn [obind]. rewrite Z.mul_0_r, !Z.add_0_r, put_own. apply IH. cbn in M. lia.
Qed.
Lemma compacted_pos : forall l, compacted l = Some (pos 0 l).
Proof.
  intros l. unfold compacted. pose proof (prods_zip l 0) as P. rewrite Z.add_0_l in P. rewrite P. cbn [obind].
  pose proof (scattered l 0 [] (length l) (le_n _)) as S. change (zlen (@nil Z)) with 0 in S. cbn [app] in S. unfold cumsum. rewrite S. cbn [obind].
  f_equal. rewrite zlen_app, <- (pos_length l 0). pose proof (zlen_nonneg _ (pos 0 l)). pose proof (zlen_nonneg _ (repeat 0 (length l - length (pos 0 l)))).
  unfold bound. destruct (Z.ltb_spec (zlen (pos 0 l)) 0); [lia|]. rewrite Z.min_r, Z.max_r by lia. unfold zlen. rewrite Nat2Z.id.
  rewrite firstn_app, Nat.sub_diag, firstn_all. cbn. apply app_nil_r.
Qed.
Lemma pos_filter : forall (f : Z -> bool) n k, 0 <= n -> pos k (map f (zrange k (k + n))) = filter f (zrange k (k + n)).
Proof.
  intros f n k N. rewrite <- (Z2Nat.id n N). clear N. revert k. induction (Z.to_nat n) as [|m IH]; intros k.
  - rewrite Z.add_0_r, zrange_nil by lia. reflexivity.
  - rewrite zrange_cons by lia. cbn [map pos filter]. rewrite Nat2Z.inj_succ. replace (k + Z.succ (Z.of_nat m)) with (k + 1 + Z.of_nat m) by lia.
    rewrite IH. reflexivity.
Qed.

(** ** Strides *)
Fixpoint suffixes (s : list Z) : list Z := match s with [] => [] | _ :: r => prodZ r :: suffixes r end.
Lemma cumprod_snoc : forall l a x, cumprod_from a (l ++ [x]) = cumprod_from a l ++ [a * prodZ l * x].
Proof.
  induction l as [|y l IH]; intros a x; [cbn; f_equal; ring|]. cbn [cumprod_from app]. rewrite IH.
  change (prodZ (y :: l)) with (y * prodZ l). do 3 f_equal. ring.
Qed.
Lemma prodZ_rev : forall l, prodZ (rev l) = prodZ l.
Proof.
  induction l as [|x l IH]; [reflexivity|]. cbn [rev]. rewrite prodZ_app, IH. change (prodZ (x :: l)) with (x * prodZ l). cbn. ring.
Qed.
Lemma flipped_product : forall x r, rev (cumprod (rev (x :: r))) = prodZ (x :: r) :: rev (cumprod (rev r)).
Proof.
  intros. cbn [rev]. unfold cumprod. rewrite cumprod_snoc, rev_app_distr, prodZ_rev. cbn [rev app].
  change (prodZ (x :: r)) with (x * prodZ r). f_equal. ring.
Qed.
Lemma strides_suffixes : forall s, s <> [] -> strides s = suffixes s.
Proof.
  assert (G : forall r, rev (cumprod (rev r)) ++ [1] = match r with [] => [1] | _ :: _ => prodZ r :: suffixes r end).
  { induction r as [|x r IH]; [reflexivity|]. rewrite flipped_product. cbn [app suffixes]. f_equal. rewrite IH. destruct r; reflexivity. }
  intros [|x [|y r]] N; [easy|reflexivity|]. unfold strides. rewrite !zlen_cons.
  destruct (Z.gtb_spec (1 + (1 + zlen r)) 1) as [|C]; [|pose proof (zlen_nonneg _ r); lia]. rewrite flipped_product. cbn [skipn].
  rewrite (G (y :: r)). reflexivity.
Qed.
Lemma rows_unravel : forall s p, Forall (fun n => 0 < n) s ->
  exists d, mapM (quotient p) (suffixes s) = Some d /\ zip_with remainder d s = Some (unravel s (p mod prodZ s)).
Proof.
  induction s as [|n r IH]; intros p F; [exists []; auto|]. inversion_clear F as [|? ? Fn Fr]. destruct (IH p Fr) as (d & D1 & D2).
  pose proof (prodZ_pos r Fr) as P. exists (p / prodZ r :: d). cbn [suffixes mapM]. unfold quotient at 1. destruct (Z.eqb_spec (prodZ r) 0); [lia|].
  cbn [obind]. rewrite D1. split; [reflexivity|]. cbn [zip_with]. unfold remainder at 1. destruct (Z.eqb_spec n 0); [lia|]. cbn [obind]. rewrite D2. cbn [obind unravel].
  change (prodZ (n :: r)) with (n * prodZ r). rewrite (Z.mul_comm n (prodZ r)). rewrite Z.rem_mul_r by lia.
  replace (p mod prodZ r + prodZ r * ((p / prodZ r) mod n)) with (p mod prodZ r + (p / prodZ r) mod n * prodZ r) by ring.
  rewrite Z.div_add, Z.mod_add, Z.mod_mod by lia. rewrite (Z.div_small (p mod prodZ r)) by (apply Z.mod_pos_bound; lia). reflexivity.
Qed.
Lemma mapM_all : forall A B (f : A -> option B) g l, (forall x, In x l -> f x = Some (g x)) -> mapM f l = Some (map g l).
Proof. induction l as [|x l IH]; intros H; [reflexivity|]. cbn [mapM map]. rewrite H by (now left). cbn [obind]. rewrite IH by (intros; apply H; now right). reflexivity. Qed.
Lemma positive_sizes : forall s, Forall (fun n => 0 <= n) s -> 0 < prodZ s -> Forall (fun n => 0 < n) s.
Proof.
  induction s as [|n r IH]; intros F P; [constructor|]. inversion_clear F as [|? ? Fn Fr]. change (prodZ (n :: r)) with (n * prodZ r) in P.
  pose proof (prodZ_nonneg r Fr). constructor; [nia|]. apply IH; [auto|nia].
Qed.
Lemma nonzero_proof : forall A (nz : A -> bool) (t : tensor A), sized t -> sizes t <> [] -> dec_nonzero nz t = Some (nonzero_rows nz t).
Proof.
  intros A nz t F N. unfold dec_nonzero, nonzero_rows. unfold sized in F. rewrite all_indices_unravel by auto. rewrite filter_map.
  rewrite compacted_pos. unfold elements. rewrite map_map. set (f := fun p => nz (elt t (unravel (sizes t) p))).
  pose proof (prodZ_nonneg _ F) as P. pose proof (pos_filter f (prodZ (sizes t)) 0 P) as Q. rewrite Z.add_0_l in Q. rewrite Q. cbn [obind].
  assert (S : mapM (fun p => do divided <- mapM (quotient p) (strides (sizes t)); zip_with remainder divided (sizes t)) (filter f (zrange 0 (prodZ (sizes t)))) =
              Some (map (unravel (sizes t)) (filter f (zrange 0 (prodZ (sizes t)))))).
  { apply mapM_all. intros p I. apply filter_In in I. destruct I as [I _]. apply in_zrange in I. rewrite strides_suffixes by auto.
    destruct (rows_unravel (sizes t) p) as (d & D1 & D2); [apply positive_sizes; [auto|lia]|]. rewrite D1. cbn [obind]. rewrite D2, Z.mod_small by lia. reflexivity. }
  destruct (sizes t); [easy|exact S].
Qed.

(** ** masked_scatter *)
Definition count (M : Z -> bool) (p : Z) : Z := zlen (filter M (zrange 0 p)).
Lemma count_step : forall M p, 0 <= p -> count M (p + 1) = count M p + long (M p).
Proof. intros M p P. unfold count. rewrite zrange_snoc, filter_app, zlen_app by auto. cbn [filter]. destruct (M p); reflexivity. Qed.
Lemma count_mono : forall M p q, 0 <= p <= q -> count M p <= count M q.
Proof. intros M p q B. unfold count. rewrite (zrange_split 0 p q) by lia. rewrite filter_app, zlen_app. pose proof (zlen_nonneg _ (filter M (zrange p q))). lia. Qed.
Lemma cumsum_count : forall M n k, 0 <= k -> 0 <= n -> cumsum_from (count M k) (map (fun p => long (M p) + 0) (zrange k (k + n))) = map (fun p => count M (p + 1)) (zrange k (k + n)).
Proof.
  intros M n k K N. rewrite <- (Z2Nat.id n N). clear N. revert k K. induction (Z.to_nat n) as [|m IH]; intros k K.
  - rewrite Z.add_0_r, zrange_nil by lia. reflexivity.
  - rewrite zrange_cons by lia. cbn [map cumsum_from]. rewrite Nat2Z.inj_succ. replace (k + Z.succ (Z.of_nat m)) with (k + 1 + Z.of_nat m) by lia.
    rewrite Z.add_0_r, <- count_step by auto. rewrite IH by lia. reflexivity.
Qed.
Lemma mapM_none : forall A B (f : A -> option B) l x, In x l -> f x = None -> mapM f l = None.
Proof.
  induction l as [|y l IH]; intros x H E; [destruct H|]. destruct H as [->|I]; cbn [mapM]; [now rewrite E|]. destruct (f y); [|reflexivity]. cbn [obind]. now rewrite (IH x).
Qed.
Lemma elements_length : forall A (t : tensor A), sized t -> zlen (elements t) = prodZ (sizes t).
Proof. intros A t F. unfold elements. rewrite zlen_map, zlen_zrange. pose proof (prodZ_nonneg _ F). lia. Qed.
Lemma elements_nth : forall A (t : tensor A) p d, 0 <= p < prodZ (sizes t) -> nth (Z.to_nat p) (elements t) d = elt t (unravel (sizes t) p).
Proof.
  intros A t p d B. unfold elements. rewrite (nth_indep _ d (elt t (unravel (sizes t) 0))).
  - rewrite (map_nth (fun p => elt t (unravel (sizes t) p))). do 2 f_equal. unfold zrange. rewrite (nth_indep _ 0 (0 + Z.of_nat 0)) by (rewrite map_length, seq_length; lia).
    rewrite (map_nth (fun i => 0 + Z.of_nat i)). rewrite seq_nth by lia. lia.
  - rewrite map_length. pose proof (zlen_zrange 0 (prodZ (sizes t))) as L. unfold zlen in L. lia.
Qed.
Lemma zrange_nth : forall n p d, 0 <= p < n -> nth (Z.to_nat p) (zrange 0 n) d = p.
Proof.
  intros n p d B. unfold zrange. rewrite (nth_indep _ d (0 + Z.of_nat 0)) by (rewrite map_length, seq_length; lia).
  rewrite (map_nth (fun i => 0 + Z.of_nat i)). rewrite seq_nth by lia. lia.
Qed.
Lemma marked_count : forall mask s, Forall (fun n => 0 <= n) s -> zlen (marked mask s) = count (fun p => NumOps.at_broadcast mask (unravel s p)) (prodZ s).
Proof. intros mask s F. unfold marked, count. rewrite all_indices_unravel, filter_map, zlen_map by auto. reflexivity. Qed.
Lemma filter_filter : forall A (f g : A -> bool) l, filter f (filter g l) = filter (fun x => g x && f x) l.
Proof. induction l as [|x l IH]; [reflexivity|]. cbn. destruct (g x); cbn; [destruct (f x); now rewrite IH|exact IH]. Qed.
Lemma before_count : forall mask s ix, Forall (fun n => 0 <= n) s -> within s ix ->
  zlen (filter (before s ix) (marked mask s)) = count (fun p => NumOps.at_broadcast mask (unravel s p)) (ravel s ix).
Proof.
  intros mask s ix F W. unfold marked, count. rewrite all_indices_unravel, filter_map, filter_map, zlen_map by auto. rewrite filter_filter.
  pose proof (ravel_bounds s ix W) as B. rewrite (zrange_split 0 (ravel s ix) (prodZ s)) by lia. rewrite filter_app, zlen_app.
  match goal with |- zlen (filter ?f (zrange 0 ?k)) + _ = _ => set (h := f) end.
  assert (E : filter h (zrange (ravel s ix) (prodZ s)) = []).
  { assert (G : forall p, In p (zrange (ravel s ix) (prodZ s)) -> h p = false).
    { intros p I. apply in_zrange in I. unfold h, before. destruct (unravel_within s p F ltac:(lia)) as [_ R]. rewrite R.
      destruct (Z.ltb_spec p (ravel s ix)); [lia|apply andb_false_r]. }
    induction (zrange (ravel s ix) (prodZ s)) as [|p l IH]; [reflexivity|]. cbn [filter]. rewrite G by (now left). apply IH. intros; apply G; now right. }
  rewrite E, zlen_nil, Z.add_0_r. f_equal.
  assert (H : forall l, (forall p, In p l -> 0 <= p < ravel s ix) -> filter h l = filter (fun p => NumOps.at_broadcast mask (unravel s p)) l).
  { induction l as [|p l IH]; intros A; [reflexivity|]. cbn [filter]. rewrite IH by (intros; apply A; now right).
    assert (Ep : h p = NumOps.at_broadcast mask (unravel s p)).
    { unfold h, before. specialize (A p (or_introl eq_refl)). destruct (unravel_within s p F ltac:(lia)) as [_ R]. rewrite R.
      destruct (Z.ltb_spec p (ravel s ix)); [apply andb_true_r|lia]. }
    now rewrite Ep. }
  apply H. intros p I. now apply in_zrange in I.
Qed.
Lemma masked_scatter_proof : forall A (self : tensor A) mask source, sized self -> sized source ->
  NumOps.broadcast (sizes mask) (sizes self) = Some (sizes self) -> 0 < prodZ (sizes source) \/ prodZ (sizes self) = 0 ->
  agree (dec_masked_scatter self mask source) (masked_scatter self mask source).
Proof.
  intros A self mask source Fs Fo B C. unfold dec_masked_scatter, masked_scatter, NumOps.map2. rewrite B. cbn [obind].
  set (s := sizes self) in *. set (M := fun p => NumOps.at_broadcast mask (unravel s p)). rewrite marked_count by auto. fold M.
  pose proof (prodZ_nonneg _ Fs) as N. fold s in N.
  pose proof (cumsum_count M (prodZ s) 0 ltac:(lia) N) as K. change (count M 0) with 0 in K. rewrite Z.add_0_l in K. 
  match goal with |- context [cumsum ?l] => change (cumsum l) with (cumsum_from 0 (map (fun p => long (M p) + 0) (zrange 0 (prodZ s)))) end. rewrite K. clear K.
  unfold clamp_min. rewrite !map_map. set (idx := map (fun p => Z.max 0 (count M (p + 1) - 1)) (zrange 0 (prodZ s))).
  destruct (Z.leb_spec (count M (prodZ s)) (prodZ (sizes source))) as [E|E].
  - assert (I : index_select (elements source) idx = Some (map (fun i => elt source (unravel (sizes source) i)) idx)).
    { unfold index_select. apply mapM_all. intros i I. unfold idx in I. apply in_map_iff in I. destruct I as (p & <- & I). apply in_zrange in I.
      assert (R : 0 <= Z.max 0 (count M (p + 1) - 1) < prodZ (sizes source)) by (pose proof (count_mono M (p + 1) (prodZ s) ltac:(lia)); lia).
      rewrite (at_index_some _ _ _ (elt source [])) by (rewrite elements_length; auto). now rewrite elements_nth. }
    rewrite I. cbn [obind]. set (sel := map (fun i => elt source (unravel (sizes source) i)) idx).
    assert (L : zlen sel = prodZ s) by (unfold sel, idx; rewrite !zlen_map, zlen_zrange; lia).
    rewrite view_exact; [|exact Fs|unfold vector; cbn [sizes]; unfold prodZ; cbn [fold_right]; rewrite L; fold (prodZ s); lia].
    cbn [obind]. unfold where_self, NumOps.map2. cbn [sizes reindex]. fold s. rewrite (DecElemProofs.broadcast_same s). cbn [obind sizes]. rewrite B.
    cbn [agree]. split; [reflexivity|]. cbn [sizes elt]. intros ix W. destruct (NumOps.at_broadcast mask ix) eqn:Q; [|].
    + assert (O : forall B (t : tensor B), sizes t = s -> NumOps.at_broadcast t ix = elt t ix) by (intros B0 t Et; apply DecElemProofs.at_own; rewrite Et; exact W).
      rewrite O by reflexivity. cbn [elt fst]. rewrite O by reflexivity. cbn [elt reindex]. unfold vector at 2. cbn [elt].
      rewrite before_count by auto. fold M. pose proof (ravel_bounds s ix W) as R. unfold vector. cbn [sizes elt].
      replace (get (unravel [zlen sel] (ravel s ix)) 0) with (ravel s ix) by (cbn; now rewrite Z.div_1_r).
      unfold sel, idx. rewrite map_map. match goal with |- nth _ (map ?f _) _ = _ => rewrite (nth_indep _ _ (f 0)) by (rewrite map_length; pose proof (zlen_zrange 0 (prodZ s)) as Z; unfold zlen in Z; lia); rewrite (map_nth f) end.
      rewrite zrange_nth by lia. rewrite count_step by lia. unfold M at 2. rewrite unravel_ravel by auto. rewrite Q. cbn [long].
      do 2 f_equal. pose proof (zlen_nonneg _ (filter M (zrange 0 (ravel s ix)))). fold (count M (ravel s ix)) in *. lia.
    + assert (O : forall B (t : tensor B), sizes t = s -> NumOps.at_broadcast t ix = elt t ix) by (intros B0 t Et; apply DecElemProofs.at_own; rewrite Et; exact W).
      rewrite O by reflexivity. cbn [elt snd]. reflexivity.
  - assert (P : 0 < prodZ s). { destruct (Z.eq_dec (prodZ s) 0) as [E0|]; [|lia]. rewrite E0 in E. change (count M 0) with 0 in E. pose proof (prodZ_nonneg _ Fo). lia. }
    assert (I : index_select (elements source) idx = None).
    { unfold index_select. apply mapM_none with (x := Z.max 0 (count M (prodZ s - 1 + 1) - 1)).
      - unfold idx. apply in_map_iff. exists (prodZ s - 1). split; [reflexivity|]. apply in_zrange. lia.
      - apply at_index_none. rewrite elements_length by auto. replace (prodZ s - 1 + 1) with (prodZ s) by ring. lia. }
    rewrite I. exact Logic.I.
Qed.
