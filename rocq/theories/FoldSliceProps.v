(** C99: folding slices of constant tensors. *)
From Coq Require Import ZArith Lia List Bool.
From Verif Require Import Prelude FoldTensorModel FoldTensorSpec.
Import ListNotations.
Open Scope Z_scope.

Lemma mapM_map_some : forall A B C (f : A -> option B) (g : C -> A) (h : C -> B) l, (forall x, In x l -> f (g x) = Some (h x)) -> mapM f (map g l) = Some (map h l).
Proof.
  intros A B C f g h l H. induction l as [|x l IH]; cbn; auto. rewrite (H x) by now left. cbn. rewrite IH; auto. intros y Hy. apply H. now right.
Qed.

(** * The loop *)
Lemma walk_reaches : forall fuel i k m, k <> 0 -> 0 <= m <= Z.of_nat fuel -> walk fuel i (i + k * m) k = Some (map (fun j => i + k * j) (zrange 0 m)).
Proof.
  induction fuel as [|fuel IH]; intros i k m Nk Hm; cbn [walk].
  - replace m with 0 by lia. rewrite Z.mul_0_r, Z.add_0_r, Z.sub_diag. reflexivity.
  - destruct (Z.eq_dec m 0) as [->|Nm]; [rewrite Z.mul_0_r, Z.add_0_r, Z.sub_diag; reflexivity|].
    assert (Z.abs (i + k * m - i) > 0) by (replace (i + k * m - i) with (k * m) by ring; nia).
    destruct (Z.gtb_spec (Z.abs (i + k * m - i)) 0) as [_|?]; [|lia]. replace (i + k * m) with (i + k + k * (m - 1)) by ring.
    rewrite IH by lia. cbn [obind]. rewrite (zrange_cons 0 m) by lia. cbn [map]. rewrite Z.mul_0_r, Z.add_0_r. f_equal. f_equal.
    assert (G : forall q a, q = Z.to_nat (m - 1 - a) -> map (fun j => i + k + k * j) (zrange a (m - 1)) = map (fun j => i + k * j) (zrange (a + 1) m)).
    { induction q as [|q IHq]; intros a Eq.
      - rewrite !zrange_nil by lia. reflexivity.
      - rewrite (zrange_cons a (m - 1)), (zrange_cons (a + 1) m) by lia. cbn [map]. f_equal; [ring|]. apply IHq. lia. }
    apply (G (Z.to_nat (m - 1)) 0). lia.
Qed.
Lemma walk_leaves : forall fuel i l k, (forall m, 0 <= m -> l <> i + k * m) -> walk fuel i l k = None.
Proof.
  induction fuel as [|fuel IH]; intros i l k H; cbn [walk]; assert (l <> i) by (specialize (H 0); lia); destruct (Z.gtb_spec (Z.abs (l - i)) 0); try lia; auto.
  rewrite IH; auto. intros m Hm E. apply (H (m + 1)); [lia|]. rewrite E. ring.
Qed.
(** The number of elements of a slice: how many i >= 0 have begin + i * step before the limit. *)
Definition counted (begin limit step m : Z) : Prop := 0 <= m /\ forall i, 0 <= i -> (if 0 <? step then begin + step * i < limit else limit < begin + step * i) <-> i < m.
(** Where the loop stops: exactly for remainders 0 and half the step. *)
Lemma visited_up : forall b l k, 0 < k -> b < l -> let r := (l - b) mod k in
  (r = 0 \/ 2 * r = k -> exists m, counted b l k m /\ visited b l k = Some (map (fun j => b + k * j) (zrange 0 m))) /\
  (r <> 0 -> 2 * r <> k -> visited b l k = None).
Proof.
  intros b l k Pk Lb r. unfold visited, moved_limit. rewrite Z.rem_mod_nonneg by lia. fold r. destruct (Z.ltb_spec 0 k); [|lia]. cbn [orb].
  assert (Hr : 0 <= r < k) by (apply Z.mod_pos_bound; lia). assert (Hd := Z.div_mod (l - b) k ltac:(lia)). fold r in Hd. set (q := (l - b) / k) in *.
  assert (Pq : 0 <= q) by (apply Z.div_pos; lia). clearbody r q. split.
  - intros C. set (m := if r =? 0 then q else q + 1). assert (Em : l + r = b + k * m) by (unfold m; destruct (Z.eqb_spec r 0); nia).
    assert (Pm : 0 <= m) by (unfold m; destruct (r =? 0); lia). exists m. split.
    + split; auto. intros i Pi. destruct (Z.ltb_spec 0 k); [|lia]. unfold m. destruct (Z.eqb_spec r 0); split; intros; nia.
    + rewrite Em. apply walk_reaches; [lia|]. rewrite Z2Nat.id by lia. replace (b + k * m - b) with (k * m) by ring. nia.
  - intros N1 N2. apply walk_leaves. intros m Pm E. assert (k * (m - q) = 2 * r) by nia. assert (0 < m - q < 2) by nia. assert (m - q = 1) by lia. nia.
Qed.
Lemma visited_down : forall b l k, k < 0 -> l < b -> let r := (b - l) mod (- k) in
  (r = 0 -> exists m, counted b l k m /\ visited b l k = Some (map (fun j => b + k * j) (zrange 0 m))) /\
  (r <> 0 -> 2 * r = - k -> exists m, counted b l k (m + 1) /\ visited b l k = Some (map (fun j => b + k * j) (zrange 0 m))) /\
  (r <> 0 -> 2 * r <> - k -> visited b l k = None).
Proof.
  intros b l k Pk Lb r. unfold visited, moved_limit.
  assert (Er : Z.rem (l - b) k = - r). { unfold r. replace (l - b) with (- (b - l)) by ring. rewrite Z.rem_opp_l by lia. f_equal.
    replace k with (- - k) at 1 by ring. rewrite Z.rem_opp_r by lia. apply Z.rem_mod_nonneg; lia. }
  rewrite Er. destruct (Z.ltb_spec 0 k); [lia|]. cbn [orb].
  assert (Hr : 0 <= r < - k) by (apply Z.mod_pos_bound; lia). assert (Hd := Z.div_mod (b - l) (- k) ltac:(lia)). fold r in Hd. set (q := (b - l) / - k) in *.
  assert (Pq : 0 <= q) by (apply Z.div_pos; lia). clearbody r q. split; [|split].
  - intros ->. cbn [Z.opp]. rewrite Z.eqb_refl. exists q. split.
    + split; auto. intros i Pi. destruct (Z.ltb_spec 0 k); [lia|]. split; intros; nia.
    + replace (l + - 0) with (b + k * q) by nia. apply walk_reaches; [lia|]. rewrite Z2Nat.id by lia. replace (b + k * q - b) with (k * q) by ring. nia.
  - intros N1 N2. destruct (Z.eqb_spec (- r) 0); [lia|]. exists q. split.
    + split; [lia|]. intros i Pi. destruct (Z.ltb_spec 0 k); [lia|]. split; intros; nia.
    + replace (l + (- r - k)) with (b + k * q) by nia. apply walk_reaches; [lia|]. rewrite Z2Nat.id by lia. replace (b + k * q - b) with (k * q) by ring. nia.
  - intros N1 N2. destruct (Z.eqb_spec (- r) 0); [lia|]. apply walk_leaves. intros m Pm E. assert (k * (m - q) = - 2 * r - k) by nia.
    assert ((- k) * (m - q) = 2 * r + k) by nia. assert (- 1 < m - q < 1) by nia. assert (m - q = 0) by lia. nia.
Qed.
Lemma visited_whole : forall n, 0 <= n -> visited 0 n 1 = Some (zrange 0 n).
Proof.
  intros n Pn. unfold visited, moved_limit. rewrite Z.rem_1_r. cbn [Z.ltb Z.compare orb]. rewrite Z.add_0_r, Z.sub_0_r.
  replace n with (0 + 1 * n) at 2 by ring. rewrite walk_reaches by lia. f_equal. rewrite <- (map_id (zrange 0 n)) at 2. apply map_ext. intros a. ring.
Qed.

(** * The positions read *)
Lemma iterate_whole : forall ins k d b l s off, ins <> [] -> d < k -> Forall (fun n => 0 <= n) ins ->
  iterate (axes_of k d b l s ins (strides ins)) off = Some (map (fun idx => off + position ins idx) (indices ins)).
Proof.
  induction ins as [|n r IH]; intros k d b l s off Ne Lk P; [congruence|]. cbn [strides axes_of]. destruct (Z.eqb_spec k d); [lia|]. inversion P as [|? ? Pn Pr]. subst.
  cbn [iterate a_begin a_limit a_step a_stride]. rewrite (visited_whole n Pn). cbn [obind]. destruct r as [|n' r'].
  - cbn [strides axes_of indices map product fold_right]. f_equal. rewrite flat_map_concat_map, concat_map, map_map.
    cbn [map]. induction (zrange 0 n) as [|x xs IHx]; cbn [map concat app]; auto. rewrite <- IHx. f_equal. cbn [position product fold_right]. ring.
  - set (r := n' :: r') in *. destruct (axes_of (k + 1) d b l s r (strides r)) as [|a0 rest] eqn:Ea.
    { unfold r in Ea. cbn [strides axes_of] in Ea. destruct (k + 1 =? d); discriminate. }
    rewrite <- Ea.
    replace (mapM _ (zrange 0 n)) with (Some (map (fun i => map (fun idx => off + product r * i + position r idx) (indices r)) (zrange 0 n))).
    + cbn [obind]. f_equal. cbn [indices]. rewrite flat_map_concat_map, concat_map, map_map. f_equal. apply map_ext. intros i. rewrite map_map. apply map_ext.
      intros idx. cbn [position]. ring.
    + symmetry. rewrite <- (map_id (zrange 0 n)) at 1. apply mapM_map_some. intros i _. apply IH; auto; [discriminate|lia].
Qed.
Lemma iterate_axis : forall ins k d b l s m off dn n, nth_error ins dn = Some n -> d = k + Z.of_nat dn -> Forall (fun n => 0 <= n) ins ->
  visited b l s = Some (map (fun j => b + s * j) (zrange 0 m)) ->
  iterate (axes_of k d b l s ins (strides ins)) off =
    Some (map (fun idx => off + position ins (at_axis dn (fun j => b + s * j) idx)) (indices (at_axis dn (fun _ => m) ins))).
Proof.
  induction ins as [|n0 r IH]; intros k d b l s m off dn n En Ed P V; [destruct dn; discriminate|]. cbn [strides axes_of]. inversion P as [|? ? Pn Pr]. subst.
  destruct dn as [|dn].
  - cbn [Z.of_nat] in *. rewrite Z.add_0_r, Z.eqb_refl. cbn [iterate a_begin a_limit a_step a_stride]. rewrite V. cbn [obind at_axis indices].
    destruct r as [|n' r'].
    + cbn [strides axes_of indices map product fold_right]. f_equal. rewrite flat_map_concat_map, concat_map, !map_map. cbn [map].
      clear V. induction (zrange 0 m) as [|x xs IHx]; cbn [map concat app]; auto. rewrite <- IHx. f_equal. cbn [position product fold_right at_axis]. ring.
    + set (r := n' :: r') in *. destruct (axes_of (k + 1) k b l s r (strides r)) as [|a0 rest] eqn:Ea.
      { unfold r in Ea. cbn [strides axes_of] in Ea. destruct (k + 1 =? k); discriminate. }
      rewrite <- Ea.
      erewrite (mapM_map_some _ _ _ _ (fun j => b + s * j) (fun j => map (fun idx => off + product r * (b + s * j) + position r idx) (indices r))).
      * cbn [obind]. f_equal. rewrite flat_map_concat_map, concat_map, map_map. f_equal. apply map_ext. intros i. rewrite map_map. apply map_ext.
        intros idx. cbn [position at_axis]. ring.
      * intros i _. apply iterate_whole; auto; [discriminate|lia].
  - destruct (Z.eqb_spec k (k + Z.of_nat (S dn))); [lia|]. cbn [iterate a_begin a_limit a_step a_stride]. rewrite (visited_whole n0 Pn). cbn [obind at_axis indices].
    cbn [nth_error] in En. destruct r as [|n' r']; [destruct dn; discriminate|]. set (r := n' :: r') in *.
    destruct (axes_of (k + 1) (k + Z.of_nat (S dn)) b l s r (strides r)) as [|a0 rest] eqn:Ea.
    { unfold r in Ea. cbn [strides axes_of] in Ea. destruct (k + 1 =? _); discriminate. }
    rewrite <- Ea.
    rewrite <- (map_id (zrange 0 n0)) at 1.
    rewrite (mapM_map_some _ _ _ _ (fun x => x) (fun i => map (fun idx => off + product r * i + position r (at_axis dn (fun j => b + s * j) idx)) (indices (at_axis dn (fun _ => m) r)))).
    + cbn [obind]. f_equal. rewrite flat_map_concat_map, concat_map, map_map. f_equal. apply map_ext. intros i. rewrite map_map. apply map_ext.
      intros idx. cbn [position at_axis]. ring.
    + intros i _. apply (IH (k + 1) (k + Z.of_nat (S dn)) b l s m _ dn n); auto. lia.
Qed.
Lemma iterate_diverges : forall ins k d b l s off dn n, nth_error ins dn = Some n -> d = k + Z.of_nat dn -> Forall (fun n => 0 < n) ins ->
  visited b l s = None -> iterate (axes_of k d b l s ins (strides ins)) off = None.
Proof.
  induction ins as [|n0 r IH]; intros k d b l s off dn n En Ed P V; [destruct dn; discriminate|]. cbn [strides axes_of]. inversion P as [|? ? Pn Pr]. subst.
  destruct dn as [|dn].
  - cbn [Z.of_nat] in *. rewrite Z.add_0_r, Z.eqb_refl. cbn [iterate a_begin a_limit a_step a_stride]. rewrite V. reflexivity.
  - destruct (Z.eqb_spec k (k + Z.of_nat (S dn))); [lia|]. cbn [iterate a_begin a_limit a_step a_stride]. rewrite (visited_whole n0) by lia. cbn [obind].
    cbn [nth_error] in En. destruct r as [|n' r']; [destruct dn; discriminate|]. set (r := n' :: r') in *.
    destruct (axes_of (k + 1) (k + Z.of_nat (S dn)) b l s r (strides r)) as [|a0 rest] eqn:Ea.
    { unfold r in Ea. cbn [strides axes_of] in Ea. destruct (k + 1 =? _); discriminate. }
    rewrite <- Ea. rewrite (zrange_cons 0 n0) by lia. cbn [mapM]. rewrite (IH (k + 1) (k + Z.of_nat (S dn)) b l s _ dn n); auto; lia.
Qed.
Lemma within_axis : forall ins dn n m g idx, nth_error ins dn = Some n -> (forall j, 0 <= j < m -> 0 <= g j < n) ->
  within (at_axis dn (fun _ => m) ins) idx -> within ins (at_axis dn g idx).
Proof.
  induction ins as [|n0 r IH]; intros dn n m g idx En Hg W; [destruct dn; discriminate|]. destruct dn as [|dn]; cbn [at_axis] in W; inversion W as [|? i ? j Hi Hj]; subst; cbn [at_axis].
  - cbn in En. injection En as ->. constructor; auto.
  - constructor; auto. eapply IH; eauto.
Qed.
Lemma read_slice : forall A (lit : literal A) f ins dn n m g, literal_of lit f -> l_sizes lit = ins -> nth_error ins dn = Some n -> (forall j, 0 <= j < m -> 0 <= g j < n) ->
  mapM (read (l_elements lit)) (map (fun idx => 0 + position ins (at_axis dn g idx)) (indices (at_axis dn (fun _ => m) ins))) =
  Some (map (fun idx => f (at_axis dn g idx)) (indices (at_axis dn (fun _ => m) ins))).
Proof.
  intros A lit f ins dn n m g (P & H & _) Es En Hg. apply mapM_map_some. intros idx Hi. apply in_indices in Hi. rewrite Z.add_0_l. rewrite Es in *.
  apply read_position; auto. eapply within_axis; eauto.
Qed.
Lemma nonneg_axis : forall ins dn m, Forall (fun n => 0 <= n) ins -> 0 <= m -> Forall (fun n => 0 <= n) (at_axis dn (fun _ => m) ins).
Proof. induction ins as [|n r IH]; intros dn m P Pm; [destruct dn; constructor|]. inversion P. subst. destruct dn; cbn; constructor; auto. Qed.

(** * Where a slice starts and ends *)
(** The bounds of a slice with a positive step, as the operation is specified: negative ones count from the end, both are cut to the axis. *)
Definition cut (n i : Z) : Z := Z.max 0 (Z.min n (if i <? 0 then i + n else i)).

(** C99. Slices with a positive step whose length leaves no remainder, or half a step, are folded to exactly the slice. *)
Theorem C99_slice_partial : forall A (lit : literal A) f ins out dn n d start stop step, literal_of lit f -> l_sizes lit = ins ->
  nth_error ins dn = Some n -> d = Z.of_nat dn -> 0 < step -> cut n start < cut n stop ->
  (let r := (cut n stop - cut n start) mod step in r = 0 \/ 2 * r = step) ->
  exists m, counted (cut n start) (cut n stop) step m /\
  (out = at_axis dn (fun _ => m) ins ->
   exists vs, slice_values lit ins out d start stop step = TLit out vs /\ holds out vs (fun idx => f (at_axis dn (fun j => cut n start + step * j) idx))).
Proof.
  intros A lit f ins out dn n d start stop step HL Es En Ed Ps Lc Hr.
  destruct (visited_up (cut n start) (cut n stop) step Ps Lc) as [V _]. destruct (V Hr) as (m & Cm & Ev). clear V Hr.
  exists m. split; auto. intros Eo. assert (P := proj1 HL). rewrite Es in P.
  assert (Pn : 0 <= n) by (apply nth_error_In in En; rewrite Forall_forall in P; auto).
  unfold slice_values, size_at, read at 1. subst d. destruct (Z.ltb_spec (Z.of_nat dn) 0); [lia|]. rewrite Nat2Z.id, En.
  assert (Eb : Z.max (if start <? 0 then start + n else start) 0 = cut n start) by (unfold cut in *; lia).
  assert (El : Z.min (if (if stop <? 0 then stop + n else stop) <? 0 then -1 else (if stop <? 0 then stop + n else stop)) n = cut n stop).
  { unfold cut in *. destruct (Z.ltb_spec (if stop <? 0 then stop + n else stop) 0); lia. }
  cbv zeta. rewrite Eb, El. destruct (Z.ltb_spec 0 step); [|lia]. destruct (Z.ltb_spec (cut n start) (cut n stop)); [|lia]. cbn [andb orb].
  rewrite (iterate_axis ins 0 (Z.of_nat dn) _ _ _ m 0 dn n En eq_refl P Ev).
  assert (Hg : forall j, 0 <= j < m -> 0 <= cut n start + step * j < n).
  { intros j Hj. destruct Cm as [_ Cm]. specialize (Cm j (proj1 Hj)). destruct (Z.ltb_spec 0 step); [|lia]. apply proj2 in Cm. specialize (Cm (proj2 Hj)).
    split; [|unfold cut in *; lia]. assert (0 <= step * j) by nia. unfold cut in *. lia. }
  rewrite (read_slice A lit f ins dn n m _ HL Es En Hg). rewrite <- Eo. rewrite zlen_map.
  rewrite zlen_indices by (rewrite Eo; apply nonneg_axis; [auto|apply Cm]). rewrite Z.eqb_refl. eexists. split; [reflexivity|]. reflexivity.
Qed.
(** Other lengths: the limit is moved past the end and never met. Every slice with step 3 of a length that is no multiple of 3 is such. *)
Theorem C99_slice_refuted : forall A (lit : literal A) f ins out dn n d start stop step, literal_of lit f -> l_sizes lit = ins -> Forall (fun n => 0 < n) ins ->
  nth_error ins dn = Some n -> d = Z.of_nat dn -> 0 < step -> cut n start < cut n stop ->
  (let r := (cut n stop - cut n start) mod step in r <> 0 /\ 2 * r <> step) -> slice_values lit ins out d start stop step = TBad.
Proof.
  intros A lit f ins out dn n d start stop step HL Es P0 En Ed Ps Lc [Hr1 Hr2].
  destruct (visited_up (cut n start) (cut n stop) step Ps Lc) as [_ V]. specialize (V Hr1 Hr2). clear Hr1 Hr2. assert (P := proj1 HL). rewrite Es in P.
  assert (Pn : 0 <= n) by (apply nth_error_In in En; rewrite Forall_forall in P; auto).
  unfold slice_values, size_at, read at 1. subst d. destruct (Z.ltb_spec (Z.of_nat dn) 0); [lia|]. rewrite Nat2Z.id, En.
  assert (Eb : Z.max (if start <? 0 then start + n else start) 0 = cut n start) by (unfold cut in *; lia).
  assert (El : Z.min (if (if stop <? 0 then stop + n else stop) <? 0 then -1 else (if stop <? 0 then stop + n else stop)) n = cut n stop).
  { unfold cut in *. destruct (Z.ltb_spec (if stop <? 0 then stop + n else stop) 0); lia. }
  cbv zeta. rewrite Eb, El. destruct (Z.ltb_spec 0 step); [|lia]. destruct (Z.ltb_spec (cut n start) (cut n stop)); [|lia]. cbn [andb orb].
  rewrite (iterate_diverges ins 0 (Z.of_nat dn) _ _ _ 0 dn n En eq_refl P0 V). reflexivity.
Qed.
(** C99. Slices with a negative step (from ONNX; begin within the axis): right if the length is a multiple of the step, an error that loses an
    element if half a step remains, and no end otherwise. *)
Theorem C99_negative_step : forall A (lit : literal A) f ins out dn n d start limit step, literal_of lit f -> l_sizes lit = ins -> Forall (fun n => 0 < n) ins ->
  nth_error ins dn = Some n -> d = Z.of_nat dn -> step < 0 -> 0 <= start < n -> 0 <= limit < start ->
  let r := (start - limit) mod (- step) in
  (r = 0 -> exists m, counted start limit step m /\ (out = at_axis dn (fun _ => m) ins -> exists vs, slice_values lit ins out d start limit step = TLit out vs /\
    holds out vs (fun idx => f (at_axis dn (fun j => start + step * j) idx)))) /\
  (r <> 0 -> 2 * r = - step -> exists m, counted start limit step m /\ (out = at_axis dn (fun _ => m) ins -> slice_values lit ins out d start limit step = TError)) /\
  (r <> 0 -> 2 * r <> - step -> slice_values lit ins out d start limit step = TBad).
Proof.
  intros A lit f ins out dn n d start limit step HL Es P0 En Ed Ps Hs Hl r. assert (P := proj1 HL). rewrite Es in P.
  destruct (visited_down start limit step Ps (proj2 Hl)) as (V1 & V2 & V3). fold r in V1, V2, V3.
  assert (Un : slice_values lit ins out d start limit step = match iterate (axes_of 0 d start limit step ins (strides ins)) 0 with
    | None => TBad | Some ks => match mapM (read (l_elements lit)) ks with None => TBad | Some vs => if zlen vs =? product out then TLit out vs else TError end end).
  { unfold slice_values, size_at, read at 1. subst d. destruct (Z.ltb_spec (Z.of_nat dn) 0); [lia|]. rewrite Nat2Z.id, En. cbv zeta.
    destruct (Z.ltb_spec start 0); [lia|]. destruct (Z.ltb_spec limit 0); [lia|]. destruct (Z.ltb_spec limit 0); [lia|]. rewrite Z.max_l, Z.min_l by lia.
    destruct (Z.ltb_spec 0 step); [lia|]. destruct (Z.ltb_spec step 0); [|lia]. destruct (Z.gtb_spec start limit); [|lia]. reflexivity. }
  rewrite Un. clear Un. clearbody r. split; [|split].
  - intros Hr. destruct (V1 Hr) as (m & Cm & Ev). exists m. split; auto. intros Eo. rewrite Ed.
    rewrite (iterate_axis ins 0 (Z.of_nat dn) _ _ _ m 0 dn n En eq_refl P Ev).
    assert (Hg : forall j, 0 <= j < m -> 0 <= start + step * j < n).
    { intros j Hj. destruct Cm as [_ Cm]. specialize (Cm j (proj1 Hj)). destruct (Z.ltb_spec 0 step); [lia|]. apply proj2 in Cm. specialize (Cm (proj2 Hj)). nia. }
    rewrite (read_slice A lit f ins dn n m _ HL Es En Hg). rewrite <- Eo. rewrite zlen_map.
    rewrite zlen_indices by (rewrite Eo; apply nonneg_axis; [auto|apply Cm]). rewrite Z.eqb_refl. eexists. split; reflexivity.
  - intros Hr1 Hr2. destruct (V2 Hr1 Hr2) as (m & Cm & Ev). exists (m + 1). split; auto. intros Eo. rewrite Ed.
    rewrite (iterate_axis ins 0 (Z.of_nat dn) _ _ _ m 0 dn n En eq_refl P Ev).
    assert (Pm : 0 <= m). { destruct Cm as [? Cm]. destruct (Cm 0 ltac:(lia)) as [C _]. destruct (Z.ltb_spec 0 step); [lia|]. lia. }
    assert (Hg : forall j, 0 <= j < m -> 0 <= start + step * j < n).
    { intros j Hj. destruct Cm as [_ Cm]. specialize (Cm j (proj1 Hj)). destruct (Z.ltb_spec 0 step); [lia|]. apply proj2 in Cm. specialize (Cm ltac:(lia)). nia. }
    rewrite (read_slice A lit f ins dn n m _ HL Es En Hg). rewrite zlen_map.
    rewrite zlen_indices by (apply nonneg_axis; auto). replace (product (at_axis dn (fun _ => m) ins) =? product out) with false; auto. symmetry. apply Z.eqb_neq. rewrite Eo.
    clear - En P0 Pm. revert dn En. induction P0 as [|n0 q Pn Pq IH]; intros dn En; [destruct dn; discriminate|].
    assert (0 < product q). { clear - Pq. induction Pq; cbn; [lia|]. apply Z.mul_pos_pos; auto. }
    destruct dn as [|dn]; cbn [at_axis].
    + change (m * product q <> (m + 1) * product q). nia.
    + change (n0 * product (at_axis dn (fun _ => m) q) <> n0 * product (at_axis dn (fun _ => m + 1) q)). specialize (IH dn En). nia.
  - intros Hr1 Hr2. rewrite Ed, (iterate_diverges ins 0 (Z.of_nat dn) _ _ _ 0 dn n En eq_refl P0 (V3 Hr1 Hr2)). reflexivity.
Qed.

(** * The folder *)
Lemma sizes_eqb_spec : forall a b, sizes_eqb a b = true <-> a = b.
Proof.
  assert (O : forall x y, opt_eqb x y = true <-> x = y).
  { intros [x|] [y|]; cbn; try (split; [discriminate|congruence]); [rewrite Z.eqb_eq; split; congruence|tauto]. }
  induction a as [|x a IH]; intros [|y b]; cbn; try (split; [discriminate|congruence]); [tauto|]. rewrite andb_true_iff, O, IH. split; [intros [-> ->]; auto|intros [= -> ->]; auto].
Qed.
Lemma type_eqb_spec : forall a b, type_eqb a b = true <-> a = b.
Proof.
  intros [s d] [s' d']. unfold type_eqb. cbn. assert (O : forall x y, opt_eqb x y = true <-> x = y).
  { intros [x|] [y|]; cbn; try (split; [discriminate|congruence]); [rewrite Z.eqb_eq; split; congruence|tauto]. }
  rewrite andb_true_iff, O. destruct s as [s|], s' as [s'|]; try (split; [intros [? _]; discriminate|congruence]).
  - rewrite sizes_eqb_spec. split; [intros [-> ->]; auto|intros [= -> ->]; auto].
  - split; [intros [_ ->]; auto|intros [= ->]; auto].
Qed.
Lemma known_spec : forall t s, known t = Some s <-> t_sizes t = Some (map Some s).
Proof.
  intros [ts d] s. unfold known. cbn. destruct ts as [l|]; cbn; [|split; discriminate].
  assert (G : mapM (fun x : option Z => x) l = Some s <-> l = map Some s).
  { revert s. induction l as [|x l IH]; intros s; cbn.
    - split; [intros [= <-]; auto|]. destruct s; [auto|discriminate].
    - destruct x as [x|]; cbn; [|split; [discriminate|destruct s; discriminate]]. destruct (mapM _ l) as [r|] eqn:E; cbn.
      + split; [intros [= <-]; cbn; f_equal; now apply IH|]. destruct s as [|y s]; cbn; [discriminate|]. intros [= -> H]. apply IH in H. congruence.
      + split; [discriminate|]. destruct s as [|y s]; cbn; [discriminate|]. intros [= -> H]. apply IH in H. discriminate. }
  rewrite G. split; congruence.
Qed.
(** When the sizes and the element types are known and equal, the arguments constant and the result of at most 16 elements, the elements are collected. *)
Theorem C99_slice_is_folded : forall A (lit : literal A) ins out start stop step d inT outT, known inT = Some ins -> known outT = Some out ->
  t_dtype inT <> None -> t_dtype inT = t_dtype outT -> l_splat lit = false -> length ins = length out -> product out <> 0 -> product out <= 16 ->
  ~ (start = 0 /\ stop = 2 ^ 63 - 1 /\ step = 1 /\ ins = out) ->
  fold_slice (Some lit) (Some start) (Some stop) (Some step) (Some d) inT outT = slice_values lit ins out (if d <? 0 then d + zlen ins else d) start stop step.
Proof.
  intros A lit ins out start stop step d inT outT Ki Ko Nd Ed Sp Ll Np L16 Ns. unfold fold_slice. rewrite Ki, Ko. apply known_spec in Ki, Ko. rewrite Ki, Ko.
  destruct (t_dtype inT) as [dt|] eqn:Di; [|congruence]. rewrite <- Ed, Z.eqb_refl. cbn [negb].
  assert (F : (step =? 1) && (start =? 0) && (stop =? int64_max) && type_eqb inT outT = false).
  { destruct (Z.eqb_spec step 1); auto. destruct (Z.eqb_spec start 0); auto. destruct (Z.eqb_spec stop int64_max); auto. cbn [andb]. apply not_true_is_false. intros T.
    apply type_eqb_spec in T. apply Ns. repeat split; auto. subst outT. rewrite Ki in Ko. injection Ko as Ko. clear - Ko. revert out Ko. induction ins; intros [|]; cbn; try discriminate; auto.
    intros [= -> H]. f_equal. auto. }
  rewrite F. rewrite !map_length, Ll, Nat.eqb_refl. cbn [negb obind]. unfold splat_value. rewrite Sp. cbv zeta.
  destruct (Z.eqb_spec (product out) 0); [congruence|]. destruct (Z.leb_spec (product out) 16); [|lia]. reflexivity.
Qed.
(** C99. A splat gives a splat of the result's sizes, whatever the bounds. *)
Theorem C99_slice_of_splat : forall A (lit : literal A) f ins out dn n start stop step dim inT outT vs m g, literal_of lit f -> l_sizes lit = ins -> l_splat lit = true ->
  nth_error ins dn = Some n -> known outT = Some out -> out = at_axis dn (fun _ => m) ins -> 0 <= m -> (forall j, 0 <= j < m -> 0 <= g j < n) ->
  l_elements lit <> [] -> fold_slice (Some lit) start stop step dim inT outT = TLit out vs -> holds out vs (fun idx => f (at_axis dn g idx)).
Proof.
  intros A lit f ins out dn n start stop step dim inT outT vs m g HL Es Sp En Ko Eo Pm Hg Ne F.
  destruct (l_elements lit) as [|x xs] eqn:El; [congruence|].
  assert (Ev : vs = repeat x (Z.to_nat (product out))).
  { unfold fold_slice in F. destruct (t_sizes inT) as [s1|]; [|discriminate]. destruct (t_sizes outT) as [s2|]; [|discriminate].
    destruct (t_dtype inT); [|discriminate]. destruct (t_dtype outT); [|discriminate]. destruct (negb _); [discriminate|].
    match type of F with (if ?c then _ else _) = _ => destruct c; [discriminate|] end. destruct (negb _); [discriminate|]. rewrite Ko in F.
    destruct (known inT); [|discriminate]. cbn [obind] in F. unfold splat_value in F. rewrite Sp, El in F. cbn [hd_error] in F. unfold splat_of in F. congruence. }
  destruct HL as (P & H & S). rewrite Es in P, H. rewrite Ev. unfold holds. assert (P' := nonneg_axis ins dn m P Pm). rewrite <- Eo in P'.
  assert (L : length (indices out) = Z.to_nat (product out)) by (rewrite <- (zlen_indices out P'); unfold zlen; lia).
  rewrite <- L. assert (I : forall idx, In idx (indices out) -> f (at_axis dn g idx) = x).
  { intros idx Hi. apply (S Sp); [|rewrite El; now left]. rewrite H. apply in_map. apply in_indices. apply (within_axis ins dn n m g idx En Hg). rewrite <- Eo. now apply in_indices. }
  clear - I. induction (indices out) as [|i l IH]; cbn; auto. rewrite (I i) by now left. f_equal. apply IH. intros j Hj. apply I. now right.
Qed.
(** C99. The operand is returned only for slices that take everything, if the result type has the size of the slice. *)
Theorem C99_slice_is_operand : forall A (lit : option (literal A)) start stop step dim inT outT ins out dn n k, fold_slice lit start stop step dim inT outT = TOperand k ->
  known inT = Some ins -> known outT = Some out -> Forall (fun n => 0 <= n) ins -> nth_error ins dn = Some n ->
  forall start' stop' step' m, (start = None \/ start = Some start') -> (stop = None \/ stop = Some stop') -> step = Some step' ->
  out = at_axis dn (fun _ => m) ins -> counted (cut n start') (cut n stop') step' m -> 0 < m ->
  k = 0%nat /\ out = ins /\ forall idx, within out idx -> at_axis dn (fun j => cut n start' + step' * j) idx = idx.
Proof.
  intros A lit start stop step dim inT outT ins out dn n k F Ki Ko P En start' stop' step' m Hs He Hk Eo [Pm Cm] Pm'.
  assert (G : k = 0%nat /\ step' = 1 /\ out = ins).
  { assert (inj : forall a b : list Z, map Some a = map Some b -> a = b) by (induction a; intros [|]; cbn; try discriminate; auto; intros [= -> H]; f_equal; auto).
    unfold fold_slice in F. rewrite Ki, Ko in F. apply known_spec in Ki, Ko. rewrite Ki, Ko in F. destruct (t_dtype inT); [|discriminate]. destruct (t_dtype outT); [|discriminate].
    destruct (negb _); [discriminate|]. subst step. match type of F with (if ?c then _ else _) = _ => destruct c eqn:C end.
    - injection F as <-. split; auto. destruct start; [|discriminate]. destruct stop; [|discriminate]. apply andb_prop in C as [C T]. apply andb_prop in C as [C _]. apply andb_prop in C as [C _].
      apply Z.eqb_eq in C. apply type_eqb_spec in T. subst outT. rewrite Ki in Ko. injection Ko as Ko. apply inj in Ko. auto.
    - destruct (negb _); [discriminate|]. match type of F with match ?x with _ => _ end = _ => destruct x; [unfold splat_of in F; discriminate|] end.
      destruct (product out =? 0); [discriminate|]. destruct dim as [d|]; [|discriminate].
      assert (Fin : (if (step' =? 1) && sizes_eqb (map Some ins) (map Some out) then TOperand (A := A) 0 else TNone) = TOperand k -> k = 0%nat /\ step' = 1 /\ out = ins).
      { destruct (Z.eqb_spec step' 1); [|discriminate]. cbn [andb]. destruct (sizes_eqb _ _) eqn:T; [|discriminate]. intros [= <-]. apply sizes_eqb_spec, inj in T. auto. }
      assert (SV : forall lt a b e q, slice_values lt ins out a b e q <> TOperand (A := A) k).
      { intros lt a b e q. unfold slice_values. destruct (size_at ins a); [|discriminate]. destruct (_ || _); [|discriminate]. destruct (iterate _ _); [|discriminate].
        destruct (mapM _ _); [|discriminate]. match goal with |- context [if ?c then _ else _] => destruct c end; discriminate. }
      destruct lit as [l|], start as [s|], stop as [e|]; auto. destruct (product out <=? 16); auto. apply SV in F. destruct F. }
  destruct G as (-> & -> & E). split; auto. split; auto. assert (Pn : 0 <= n) by (apply nth_error_In in En; rewrite Forall_forall in P; auto).
  assert (Em : m = n). { rewrite E in Eo. clear - Eo En. revert dn En Eo. induction ins as [|x r IH]; intros [|dn] En Eo; cbn in *; try discriminate; [congruence|]. injection Eo as Eo. eauto. }
  destruct (Cm (m - 1) ltac:(lia)) as [_ C1]. specialize (C1 ltac:(lia)). cbn in C1. assert (C0 : cut n start' = 0) by (unfold cut in *; lia). rewrite C0.
  intros idx W. clear - W. revert dn idx W. induction out as [|x r IH]; intros dn idx W; inversion W as [|? y ? ys Hy Hys]; subst; destruct dn; cbn [at_axis]; [reflexivity|reflexivity| |].
  - f_equal. ring.
  - f_equal. now apply IH.
Qed.

(** C99. What is needed for any answer, and for one that depends on the elements. *)
Theorem C99_slice_answers : forall A (lit : option (literal A)) start stop step dim inT outT, fold_slice lit start stop step dim inT outT <> TNone ->
  t_sizes inT <> None /\ t_sizes outT <> None /\ t_dtype inT <> None /\ t_dtype inT = t_dtype outT /\
  ((exists k, fold_slice lit start stop step dim inT outT = TOperand k) \/
   exists l ins out, lit = Some l /\ known inT = Some ins /\ known outT = Some out /\ length ins = length out /\
     (l_splat l = true \/ 0 <> product out /\ product out <= 16 /\ start <> None /\ stop <> None /\ step <> None /\ dim <> None)).
Proof.
  intros A lit start stop step dim inT outT N. unfold fold_slice in *.
  destruct (t_sizes inT) as [s1|] eqn:E1; [|congruence]. destruct (t_sizes outT) as [s2|] eqn:E2; [|congruence].
  destruct (t_dtype inT) as [d1|] eqn:D1; [|congruence]. destruct (t_dtype outT) as [d2|] eqn:D2; [|congruence]. destruct (Z.eqb_spec d1 d2) as [->|]; cbn [negb] in *; [|congruence].
  split; [discriminate|]. split; [discriminate|]. split; [discriminate|]. split; [auto|].
  match goal with |- (exists k, (if ?c then _ else _) = _) \/ _ => destruct c; [left; eauto|] end.
  destruct (Nat.eqb_spec (length s1) (length s2)) as [L|]; cbn [negb] in *; [|congruence].
  destruct (known inT) as [ins|] eqn:K1; [|congruence]. destruct (known outT) as [out|] eqn:K2; [|congruence].
  assert (Ll : length ins = length out). { apply known_spec in K1, K2. rewrite E1 in K1. rewrite E2 in K2. injection K1 as ->. injection K2 as ->. now rewrite !map_length in L. }
  destruct lit as [l|]; cbn [obind] in *.
  - destruct (splat_value l) as [x|] eqn:Sx.
    + right. exists l, ins, out. repeat split; auto. left. unfold splat_value in Sx. destruct (l_splat l); congruence.
    + destruct (Z.eqb_spec (product out) 0); [congruence|]. destruct dim as [d|]; [|congruence].
      assert (Fin : forall k, (if (k =? 1) && sizes_eqb s1 s2 then TOperand (A := A) 0 else TNone) <> TNone -> exists q, (if (k =? 1) && sizes_eqb s1 s2 then TOperand (A := A) 0 else TNone) = TOperand q).
      { intros k H. destruct (_ && _); [eauto|congruence]. }
      cbv zeta in *. destruct step as [k|]; [|destruct start; congruence]. destruct start as [a|], stop as [b|]; auto. destruct (Z.leb_spec (product out) 16); [|auto].
      right. exists l, ins, out. repeat split; auto. right. repeat split; try discriminate; auto.
  - destruct (product out =? 0); [congruence|]. destruct dim as [d|]; [|congruence]. destruct step as [k|]; [|congruence]. left. destruct (_ && _); [eauto|congruence].
Qed.

Example C99_nonvacuous :
  let lit := {| l_sizes := [2; 5]; l_splat := false; l_elements := [0; 1; 2; 3; 4; 5; 6; 7; 8; 9] |} in
  let t s := {| t_sizes := Some (map Some s); t_dtype := Some 4 |} in
  literal_of lit (fun idx => match idx with [i; j] => 5 * i + j | _ => 0 end) /\
  fold_slice (Some lit) (Some 1) (Some 5) (Some 2) (Some (-1)) (t [2; 5]) (t [2; 2]) = TLit [2; 2] [1; 3; 6; 8] /\
  fold_slice (Some lit) (Some 0) (Some 5) (Some 2) (Some 1) (t [2; 5]) (t [2; 3]) = TLit [2; 3] [0; 2; 4; 5; 7; 9] /\
  fold_slice (Some lit) (Some 0) (Some 5) (Some 3) (Some 1) (t [2; 5]) (t [2; 2]) = TBad /\
  fold_slice (Some lit) (Some 4) (Some (-9)) (Some (-2)) (Some 1) (t [2; 5]) (t [2; 3]) = TError.
Proof.
  cbv zeta. split; [|repeat split; reflexivity]. split; [repeat constructor; lia|]. split; [reflexivity|discriminate].
Qed.
Print Assumptions C99_slice_answers.
Print Assumptions C99_slice_partial.
Print Assumptions C99_slice_refuted.
Print Assumptions C99_negative_step.
Print Assumptions C99_slice_is_folded.
Print Assumptions C99_slice_of_splat.
Print Assumptions C99_slice_is_operand.
