(** C102: folding comparisons, fills and single elements of constant tensors. *)
From Coq Require Import ZArith Lia List Bool.
From Verif Require Import Prelude FoldTensorModel FoldTensorSpec FoldSliceProps FoldTensorProps FoldNaryModel FoldNaryProps FoldCompareModel.
From Verif Require FoldModel FoldProps FoldFloatModel FoldFloatProps.
Import ListNotations.
Open Scope Z_scope.

Definition sat (c : comparison) (x y : Z) : Prop := match c with Le => x <= y | Lt => x < y | Gt => y < x | Ge => y <= x | Eq => x = y | Ne => x <> y end.
Lemma compare_sat : forall c x y, compare_z c x y = true <-> sat c x y.
Proof.
  intros [] x y; cbn [compare_z sat]; [apply Z.leb_le|apply Z.ltb_lt|rewrite Z.gtb_lt; tauto|rewrite Z.geb_le; tauto|apply Z.eqb_eq|rewrite negb_true_iff; apply Z.eqb_neq].
Qed.
Lemma limited_fits : forall w u, 0 <= w <= 64 -> 0 <= u < 2 ^ w -> limited (AP w u) = u.
Proof. exact (limited_spec unit (fun _ => tt) (fun x => x)). Qed.
Lemma ap_new_in : forall w v, 0 <= v < 2 ^ w -> ap_new w v = Some (AP w v).
Proof. exact (ap_new_fits unit (fun _ => tt) (fun x => x)). Qed.
Lemma sext_value : forall w u, 0 < w -> sext (AP w u) = value_of Signed w u.
Proof. exact (sext_spec unit (fun _ => tt) (fun x => x)). Qed.
Lemma sext_of_mod : forall x, - 2 ^ 63 <= x < 2 ^ 63 -> sext (AP 64 (x mod 2 ^ 64)) = x.
Proof. exact (sext_mod unit (fun _ => tt) (fun x => x) (fun x _ => x) (fun x _ => x) (fun x _ => x) (fun x _ => x) (fun x _ => x) (fun x => x) (fun x => x) tt). Qed.
Lemma in_range : forall z w, 0 <= w -> 0 <= z mod 2 ^ w < 2 ^ w.
Proof. intros z w H. apply Z.mod_pos_bound. apply Z.pow_pos_nonneg; lia. Qed.
Section Props.
Variable D : Type.
Variable compare_d : comparison -> D -> D -> bool.

Lemma holds_const : forall A out (l : literal A) g, covers out l g -> l_splat l = true -> exists x, hd_error (l_elements l) = Some x /\ forall idx, g idx = x.
Proof. intros A out l g C S. unfold covers in C. now rewrite S in C. Qed.
(** The folder of one element, applied to all. *)
Lemma one_or_many : forall A B out (l : literal A) g (f : A -> option B) (h : list Z -> B), Forall (fun n => 0 <= n) out -> covers out l g -> (forall idx, f (g idx) = Some (h idx)) ->
  exists vs, (if l_splat l then one_of out (do u <- hd_error (l_elements l); f u) else many_of out (mapM f (l_elements l))) = TLit out vs /\ holds out vs h.
Proof.
  intros A B out l g f h P C H. unfold covers in C. destruct (l_splat l).
  - destruct C as (x & -> & G). cbn [obind]. assert (E := H []). rewrite (G []) in E. rewrite E. cbn [one_of]. unfold splat_of. eexists. split; [reflexivity|]. apply holds_splat; auto.
    intros idx _. assert (Q := H idx). rewrite (G idx), E in Q. congruence.
  - destruct C as [_ ->]. rewrite (mapM_map_some _ _ _ f g h) by auto. cbn [many_of]. unfold dense. rewrite zlen_map, (zlen_indices out P), Z.eqb_refl. eexists. split; reflexivity.
Qed.
Lemma value_range : forall s w u, 0 < w <= 64 -> 0 <= u < 2 ^ w -> s = Signed -> - 2 ^ 63 <= value_of s w u < 2 ^ 63.
Proof.
  intros s w u Hw Hu ->. cbn [value_of]. assert (E : 2 ^ w = 2 * 2 ^ (w - 1)) by (rewrite <- Z.pow_succ_r by lia; f_equal; lia). assert (2 ^ (w - 1) <= 2 ^ 63) by (apply Z.pow_le_mono_r; lia).
  destruct (Z.ltb_spec u (2 ^ (w - 1))); lia.
Qed.
Lemma compare_ap_spec : forall c unsigned x y, 0 <= x < 2 ^ 64 -> 0 <= y < 2 ^ 64 -> compare_ap c unsigned (AP 64 x) (AP 64 y) = Some (if unsigned then compare_z c x y else compare_z c (sext (AP 64 x)) (sext (AP 64 y))).
Proof. intros c unsigned x y Hx Hy. unfold compare_ap. cbn [width]. rewrite Z.max_id. rewrite !limited_fits, !ap_new_in by lia. reflexivity. Qed.
Lemma compare_signed : forall c s w u z, 0 < w <= 64 -> 0 <= u < 2 ^ w -> is_unsigned s = false -> - 2 ^ 63 <= z < 2 ^ 63 ->
  compare_int c (is_unsigned s) w u (AP 64 (z mod 2 ^ 64)) = Some (compare_z c (value_of Signed w u) z).
Proof.
  intros c s w u z Hw Hu -> Hz. assert (V := value_range Signed w u Hw Hu eq_refl). unfold compare_int, to_width. cbn [width]. rewrite sext_value by lia. change (64 - 1) with 63.
  destruct (Z.leb_spec (- 2 ^ 63) (value_of Signed w u)), (Z.ltb_spec (value_of Signed w u) (2 ^ 63)); try lia. cbn [andb obind].
  rewrite compare_ap_spec by (apply in_range; lia). now rewrite !sext_of_mod by lia.
Qed.
Lemma compare_unsigned : forall c w u z, 0 < w <= 64 -> 0 <= u < 2 ^ w -> compare_int c true w u (AP 64 (z mod 2 ^ 64)) = Some (compare_z c u (z mod 2 ^ 64)).
Proof.
  intros c w u z Hw Hu. unfold compare_int, to_width, zext. cbn [width bits]. assert (2 ^ w <= 2 ^ 64) by (apply Z.pow_le_mono_r; lia). rewrite ap_new_in by lia. cbn [obind].
  apply compare_ap_spec; [lia|apply in_range; lia].
Qed.
Lemma fold_compare_int : forall c w s (l : literal Z) z out, (l_splat l = true \/ product out <= 16) ->
  fold_compare D compare_d c (Some (DenseInt w s l)) (Some (IntA 64 Signless (z mod 2 ^ 64))) (Some out) true =
  if l_splat l then one_of out (do u <- hd_error (l_elements l); compare_int c (is_unsigned s) w u (AP 64 (z mod 2 ^ 64))) else many_of out (mapM (fun u => compare_int c (is_unsigned s) w u (AP 64 (z mod 2 ^ 64))) (l_elements l)).
Proof.
  intros c w s l z out H. unfold fold_compare. destruct (l_splat l); auto. destruct (Z.gtb_spec (product out) 16); auto. destruct H; [discriminate|lia].
Qed.
(** C102. An element is compared with an integer constant as the integer it is, for signed types, and for unsigned ones if the constant is not negative. *)
Theorem C102_compare_partial : forall c w s (l : literal Z) g z out, Forall (fun n => 0 <= n) out -> 0 < w <= 64 -> covers out l g -> (forall idx, 0 <= g idx < 2 ^ w) -> - 2 ^ 63 <= z < 2 ^ 63 ->
  (l_splat l = true \/ product out <= 16) -> s = Signed \/ s = Unsigned /\ 0 <= z ->
  exists vs b, fold_compare D compare_d c (Some (DenseInt w s l)) (Some (IntA 64 Signless (z mod 2 ^ 64))) (Some out) true = TLit out vs /\ holds out vs b /\
    forall idx, b idx = true <-> sat c (value_of s w (g idx)) z.
Proof.
  intros c w s l g z out P Hw C Hg Hz Sm Hs. rewrite fold_compare_int by auto.
  destruct (one_or_many _ _ out l g (fun u => compare_int c (is_unsigned s) w u (AP 64 (z mod 2 ^ 64))) (fun idx => compare_z c (value_of s w (g idx)) z) P C) as (vs & E & H).
  - intros idx. destruct Hs as [->|[-> Pz]]; [now apply compare_signed|]. cbn [is_unsigned value_of]. rewrite compare_unsigned by auto. assert (2 ^ 63 < 2 ^ 64) by (apply Z.pow_lt_mono_r; lia). now rewrite (Z.mod_small z) by lia.
  - exists vs, (fun idx => compare_z c (value_of s w (g idx)) z). split; auto. split; auto. intros idx. apply compare_sat.
Qed.
(** A true element of a boolean tensor is compared as -1, and a negative constant with an unsigned element as 2^64 more. *)
Theorem C102_compare_refuted : forall c (l : literal Z) g z out, Forall (fun n => 0 <= n) out -> covers out l g -> - 2 ^ 63 <= z < 2 ^ 63 -> (l_splat l = true \/ product out <= 16) ->
  ((forall idx, 0 <= g idx < 2) -> exists vs b, fold_compare D compare_d c (Some (DenseInt 1 Signless l)) (Some (IntA 64 Signless (z mod 2 ^ 64))) (Some out) true = TLit out vs /\ holds out vs b /\
     forall idx, b idx = true <-> sat c (- g idx) z) /\
  (forall w, 0 < w <= 64 -> z < 0 -> (forall idx, 0 <= g idx < 2 ^ w) ->
     exists vs b, fold_compare D compare_d c (Some (DenseInt w Unsigned l)) (Some (IntA 64 Signless (z mod 2 ^ 64))) (Some out) true = TLit out vs /\ holds out vs b /\
     forall idx, b idx = true <-> sat c (g idx) (z + 2 ^ 64)).
Proof.
  intros c l g z out P C Hz Sm. split.
  - intros Hg. rewrite fold_compare_int by auto.
    destruct (one_or_many _ _ out l g (fun u => compare_int c (is_unsigned Signless) 1 u (AP 64 (z mod 2 ^ 64))) (fun idx => compare_z c (- g idx) z) P C) as (vs & E & H).
    + intros idx. specialize (Hg idx). rewrite compare_signed by (auto; try lia; change (2 ^ 1) with 2; lia). do 2 f_equal. cbn [value_of]. change (2 ^ (1 - 1)) with 1. change (2 ^ 1) with 2. destruct (Z.ltb_spec (g idx) 1); lia.
    + exists vs, (fun idx => compare_z c (- g idx) z). split; auto. split; auto. intros idx. apply compare_sat.
  - intros w Hw Nz Hg. rewrite fold_compare_int by auto.
    destruct (one_or_many _ _ out l g (fun u => compare_int c (is_unsigned Unsigned) w u (AP 64 (z mod 2 ^ 64))) (fun idx => compare_z c (g idx) (z + 2 ^ 64)) P C) as (vs & E & H).
    + intros idx. cbn [is_unsigned]. rewrite compare_unsigned by auto. do 2 f_equal. assert (2 ^ 64 = 2 * 2 ^ 63) by reflexivity. replace z with (z + 2 ^ 64 + (-1) * 2 ^ 64) at 1 by ring. rewrite Z.mod_add by lia. apply Z.mod_small. lia.
    + exists vs, (fun idx => compare_z c (g idx) (z + 2 ^ 64)). split; auto. split; auto. intros idx. apply compare_sat.
Qed.
(** A float tensor is compared with a float constant; a constant of the other kind fails an assertion. *)
Theorem C102_compare_float : forall c (l : literal D) g y out, Forall (fun n => 0 <= n) out -> covers out l g -> (l_splat l = true \/ product out <= 16) ->
  exists vs, fold_compare D compare_d c (Some (DenseFp l)) (Some (FloatA y)) (Some out) true = TLit out vs /\ holds out vs (fun idx => compare_d c (g idx) y).
Proof.
  intros c l g y out P C Sm. destruct (one_or_many _ _ out l g (fun x => Some (compare_d c x y)) (fun idx => compare_d c (g idx) y) P C) as (vs & E & H); auto. exists vs. split; auto. rewrite <- E.
  unfold fold_compare. destruct (l_splat l) eqn:Sp; auto. destruct (Z.gtb_spec (product out) 16); [destruct Sm; [discriminate|lia]|]. f_equal. symmetry.
  clear. induction (l_elements l) as [|x xs IH]; [reflexivity|]. cbn [mapM obind map]. now rewrite IH.
Qed.
Theorem C102_compare_mixed_refuted : forall c l l' w s ws ss v y out, (l_splat l = true \/ product out <= 16) -> (l_splat l' = true \/ product out <= 16) ->
  fold_compare D compare_d c (Some (DenseFp l)) (Some (IntA ws ss v)) (Some out) true = TBad /\ fold_compare D compare_d c (Some (DenseInt w s l')) (Some (FloatA y)) (Some out) true = TBad.
Proof.
  intros c l l' w s ws ss v y out H H'. unfold fold_compare. split.
  - destruct (l_splat l); auto. destruct (Z.gtb_spec (product out) 16); auto. destruct H; [discriminate|lia].
  - destruct (l_splat l'); auto. destruct (Z.gtb_spec (product out) 16); auto. destruct H'; [discriminate|lia].
Qed.
Theorem C102_compare_applies : forall c lhs rhs sizes dt, fold_compare D compare_d c lhs rhs sizes dt <> TNone ->
  exists a out, lhs = Some a /\ sizes = Some out /\ dt = true /\ (exists k, rhs = Some k /\ ((exists w s u, k = IntA w s u) \/ exists x, k = FloatA x)) /\
    ((exists l, a = DenseFp l /\ (l_splat l = true \/ product out <= 16)) \/ exists w s l, a = DenseInt w s l /\ (l_splat l = true \/ product out <= 16)).
Proof.
  intros c lhs rhs sizes dt H. unfold fold_compare in H. destruct lhs as [a|]; [|congruence]. destruct a as [l|w s l|x|w s u|]; try congruence;
    (destruct rhs as [k|]; [|congruence]; destruct sizes as [out|]; [|congruence]; destruct dt; [|congruence]; eexists; exists out; split; [reflexivity|]; split; auto; split; auto).
  - split; [|left; exists l; split; auto; destruct (l_splat l); auto; right; destruct (Z.gtb_spec (product out) 16); [congruence|lia]].
    exists k. split; auto. destruct k; eauto; destruct (l_splat l); try congruence; destruct (_ >? _); congruence.
  - split; [|right; exists w, s, l; split; auto; destruct (l_splat l); auto; right; destruct (Z.gtb_spec (product out) 16); [congruence|lia]].
    exists k. split; auto. destruct k; eauto; destruct (l_splat l); try congruence; destruct (_ >? _); congruence.
Qed.

(** * Equality of tensors *)
Lemma covers_values : forall A out (l : literal A) g, Forall (fun n => 0 <= n) out -> covers out l g -> (l_splat l = true -> l_sizes l = out) -> values out l = Some (map g (indices out)).
Proof.
  intros A out l g P C E. unfold values. destruct (l_splat l) eqn:Sp.
  - destruct (holds_const _ _ _ _ C Sp) as (x & -> & G). cbn [obind]. f_equal. apply (holds_splat _ g out x P). auto.
  - unfold covers in C. rewrite Sp in C. destruct C as [_ ->]. reflexivity.
Qed.
Lemma combine_maps : forall A B C (f : A -> B) (g : A -> C) l, combine (map f l) (map g l) = map (fun x => (f x, g x)) l.
Proof. intros A B C f g. induction l as [|x l IH]; cbn; auto. now rewrite IH. Qed.
Lemma equal_lists_spec : forall A (eq : A -> A -> bool) out x y g h, Forall (fun n => 0 <= n) out -> covers out x g -> covers out y h -> (l_splat x = true -> l_splat y = true \/ l_sizes x = out) -> (l_splat y = true -> l_splat x = true \/ l_sizes y = out) ->
  (l_splat x = true /\ l_splat y = true \/ product out <= 16) -> exists vs, equal_lists eq out x y = TLit out vs /\ holds out vs (fun idx => eq (g idx) (h idx)).
Proof.
  intros A eq out x y g h P Cx Cy Sx Sy Sm. unfold equal_lists. destruct (l_splat x && l_splat y) eqn:Both.
  - apply andb_prop in Both as [B1 B2]. destruct (holds_const _ _ _ _ Cx B1) as (a & -> & Ga). destruct (holds_const _ _ _ _ Cy B2) as (b & -> & Gb). cbn [obind one_of]. unfold splat_of. eexists. split; [reflexivity|].
    apply holds_splat; auto. intros idx _. now rewrite Ga, Gb.
  - assert (Ex : l_sizes x = out). { destruct (l_splat x) eqn:E; [|unfold covers in Cx; rewrite E in Cx; apply Cx]. destruct (Sx eq_refl) as [H|]; auto. rewrite H in Both. discriminate. }
    assert (Ey : l_sizes y = out). { destruct (l_splat y) eqn:E; [|unfold covers in Cy; rewrite E in Cy; apply Cy]. destruct (Sy eq_refl) as [H|]; auto. rewrite H in Both. discriminate. }
    rewrite Ex, Ey, same_sizes_refl. cbn [negb orb]. destruct (Z.gtb_spec (product out) 16); [destruct Sm as [[H1 H2]|]; [rewrite H1, H2 in Both; discriminate|lia]|].
    rewrite (covers_values _ _ _ _ P Cx) by auto. rewrite (covers_values _ _ _ _ P Cy) by auto. rewrite !zlen_map, (zlen_indices out P). destruct (Z.leb_spec (product out) (product out)); [|lia]. cbn [andb].
    rewrite combine_maps. assert (L : length (indices out) = Z.to_nat (product out)) by (rewrite <- (zlen_indices out P); unfold zlen; lia).
    rewrite firstn_all2 by (rewrite map_length; lia). rewrite map_map. cbn [fst snd]. unfold dense. rewrite zlen_map, (zlen_indices out P), Z.eqb_refl. eexists. split; reflexivity.
Qed.
Theorem C102_eq_tensor_partial : forall out fs fo, Forall (fun n => 0 <= n) out ->
  (forall w s x y g h, covers out x g -> covers out y h -> (l_splat x = true -> l_splat y = true \/ l_sizes x = out) -> (l_splat y = true -> l_splat x = true \/ l_sizes y = out) -> (l_splat x = true /\ l_splat y = true \/ product out <= 16) ->
     exists vs, fold_eq_tensor D compare_d false (Some (DenseInt w s x)) (Some (DenseInt w s y)) fs fo (Some out) true = TLit out vs /\ exists b, holds out vs b /\ forall idx, b idx = true <-> g idx = h idx) /\
  (forall x y g h, fs = fo -> covers out x g -> covers out y h -> (l_splat x = true -> l_splat y = true \/ l_sizes x = out) -> (l_splat y = true -> l_splat x = true \/ l_sizes y = out) -> (l_splat x = true /\ l_splat y = true \/ product out <= 16) ->
     exists vs, fold_eq_tensor D compare_d false (Some (DenseFp x)) (Some (DenseFp y)) fs fo (Some out) true = TLit out vs /\ holds out vs (fun idx => compare_d Eq (g idx) (h idx))).
Proof.
  intros out fs fo P. split.
  - intros w s x y g h Cx Cy Sx Sy Sm. destruct (equal_lists_spec _ Z.eqb out x y g h P Cx Cy Sx Sy Sm) as (vs & E & H). exists vs. split.
    + unfold fold_eq_tensor. rewrite Z.eqb_refl. destruct s; exact E.
    + exists (fun idx => g idx =? h idx). split; auto. intros idx. apply Z.eqb_eq.
  - intros x y g h -> Cx Cy Sx Sy Sm. destruct (equal_lists_spec _ (compare_d Eq) out x y g h P Cx Cy Sx Sy Sm) as (vs & E & H). exists vs. split; auto. unfold fold_eq_tensor. now rewrite Z.eqb_refl.
Qed.
(** A tensor is equal to itself everywhere, even where it is NaN. *)
Theorem C102_eq_tensor_refuted : forall out a b fs fo, fold_eq_tensor D compare_d true a b fs fo (Some out) true = TLit out (repeat true (Z.to_nat (product out))).
Proof. reflexivity. Qed.
Theorem C102_eq_tensor_applies : forall same a b fs fo sizes dt, fold_eq_tensor D compare_d same a b fs fo sizes dt <> TNone -> exists out, sizes = Some out /\ dt = true /\
  (same = true \/ (exists x y, a = Some (DenseFp x) /\ b = Some (DenseFp y) /\ fs = fo) \/ exists w s x y, a = Some (DenseInt w s x) /\ b = Some (DenseInt w s y)).
Proof.
  intros same a b fs fo sizes dt H. unfold fold_eq_tensor in H. destruct sizes as [out|]; [|congruence]. destruct dt; [|congruence]. exists out. split; auto. split; auto. destruct same; [auto|]. right.
  destruct a as [[x|w s x|?|? ? ?|]|]; try congruence; destruct b as [[y|w' s' y|?|? ? ?|]|]; try congruence.
  - left. destruct (Z.eqb_spec fs fo); [eauto|congruence].
  - right. destruct (Z.eqb_spec w w') as [<-|]; [|cbn in H; congruence]. destruct s, s'; cbn in H; try congruence; eauto 8.
Qed.

(** * Single elements *)
Theorem C102_item_partial : forall out l g w s full number, covers out l g -> l_splat l = true -> 0 < w -> (s = Signed \/ s = Unsigned) ->
  fold_item D (Some (DenseInt w s l)) full number = ItemIs (SInt (value_of s w (g []))).
Proof.
  intros out l g w s full number C Sp Pw Hs. destruct (holds_const _ _ _ _ C Sp) as (x & Ex & G). unfold fold_item. rewrite Sp, Ex, G. destruct Hs as [->| ->]; cbn [is_unsigned]; auto. now rewrite sext_value.
Qed.
Theorem C102_item_float : forall out (l : literal D) g full number, covers out l g -> l_splat l = true -> fold_item D (Some (DenseFp l)) full number = ItemIs (SFloat (g [])).
Proof. intros out l g full number C Sp. destruct (holds_const _ _ _ _ C Sp) as (x & Ex & G). unfold fold_item. now rewrite Sp, Ex, G. Qed.
(** The element of a boolean tensor that holds true is -1; that of a tensor filled with a number is the number, whatever type it was converted to. *)
Theorem C102_item_refuted : (forall l full number, l_splat l = true -> hd_error (l_elements l) = Some 1 -> fold_item D (Some (DenseInt 1 Signless l)) full number = ItemIs (SInt (-1))) /\
  (forall v number, fold_item D None (Some v) number = ItemValue v).
Proof. split; [|reflexivity]. intros l full number Sp E. unfold fold_item. now rewrite Sp, E. Qed.
Theorem C102_item_number : forall v, fold_item D None None (Some v) = ItemValue v /\ fold_item D None None None = NoItem.
Proof. split; reflexivity. Qed.

(** * Fills *)
Variable d_zero d_one : D.
Variable round : D -> D.
Lemma nonneg_spec : forall l, all_nonneg l = true <-> Forall (fun n => 0 <= n) l.
Proof. intros l. unfold all_nonneg. rewrite forallb_forall, Forall_forall. split; intros H n Hn; specialize (H n Hn); lia. Qed.
Lemma splat_holds : forall A out (x : A), Forall (fun n => 0 <= n) out -> exists vs, splat_of out x = TLit out vs /\ holds out vs (fun _ => x).
Proof. intros A out x P. unfold splat_of. eexists. split; [reflexivity|]. now apply holds_splat. Qed.
(** C102. Ones and zeros have the sizes that were given, and the number in each element. *)
Theorem C102_ones_zeros : forall given sizes, Forall (fun n => 0 <= n) given -> Forall (fun n => 0 <= n) sizes ->
  (forall w s, 0 < w -> (exists vs, fold_ones D d_one round (Some given) (Some sizes) (Some (EInt w s)) = TLit given vs /\ holds given vs (fun _ => OfInt 1)) /\
     (exists vs, fold_zeros D d_zero round (Some given) (Some sizes) (Some (EInt w s)) = TLit given vs /\ holds given vs (fun _ => OfInt 0))) /\
  (exists vs, fold_ones D d_one round (Some given) (Some sizes) (Some EFloat) = TLit given vs /\ holds given vs (fun _ => OfFloat (round d_one))) /\
  (exists vs, fold_zeros D d_zero round (Some given) (Some sizes) (Some EFloat) = TLit given vs /\ holds given vs (fun _ => OfFloat (round d_zero))).
Proof.
  intros given sizes G S. apply nonneg_spec in G as G'. apply nonneg_spec in S. unfold fold_ones, fold_zeros, fold_fill. rewrite G', S. cbn [andb]. split.
  - intros w s Pw. assert (E : 2 ^ w = 2 * 2 ^ (w - 1)) by (rewrite <- Z.pow_succ_r by lia; f_equal; lia). assert (0 < 2 ^ (w - 1)) by (apply Z.pow_pos_nonneg; lia).
    unfold int_attr. rewrite !Z.mod_small by lia. split; now apply splat_holds.
  - split; now apply splat_holds.
Qed.
(** A fill has the sizes of the result's type, which are those given; an integer that fits is kept. *)
Theorem C102_full_partial : forall given sizes, Forall (fun n => 0 <= n) given -> Forall (fun n => 0 <= n) sizes ->
  (forall w s z, 0 <= z < 2 ^ w \/ (s = Signed /\ 0 < w /\ - 2 ^ (w - 1) <= z < 2 ^ (w - 1)) -> exists vs u, fold_full D round (Some given) (Some sizes) (Some (EInt w s)) (Some (SInt z)) = TLit sizes vs /\ holds sizes vs (fun _ => OfInt u) /\
     (s = Signed -> - 2 ^ (w - 1) <= z < 2 ^ (w - 1) -> value_of s w u = z) /\ (s <> Signed -> value_of s w u = z)) /\
  (forall x, exists vs, fold_full D round (Some given) (Some sizes) (Some EFloat) (Some (SFloat x)) = TLit sizes vs /\ holds sizes vs (fun _ => OfFloat (round x))).
Proof.
  intros given sizes G S. apply nonneg_spec in G. apply nonneg_spec in S as S'. unfold fold_full, fold_fill. rewrite G, S'. cbn [andb]. split.
  - intros w s z Hz. unfold int_attr. destruct (splat_holds _ sizes (OfInt (D := D) (z mod 2 ^ w)) S) as (vs & E & H). exists vs, (z mod 2 ^ w). split; auto. split; auto. split.
    + intros -> Hs. cbn [value_of]. assert (Pw : 0 < w). { destruct (Z_lt_le_dec 0 w); auto. exfalso. rewrite (Z.pow_neg_r 2 (w - 1)) in Hs by lia. lia. }
      assert (E2 : 2 ^ w = 2 * 2 ^ (w - 1)) by (rewrite <- Z.pow_succ_r by lia; f_equal; lia). destruct (Z_lt_le_dec z 0) as [N|N].
      * assert (Ez : z mod 2 ^ w = z + 2 ^ w). { replace z with (z + 2 ^ w + (-1) * 2 ^ w) at 1 by ring. rewrite Z.mod_add by lia. apply Z.mod_small. lia. }
        rewrite Ez. destruct (Z.ltb_spec (z + 2 ^ w) (2 ^ (w - 1))); lia.
      * rewrite Z.mod_small by lia. destruct (Z.ltb_spec z (2 ^ (w - 1))); lia.
    + intros Ns. destruct Hz as [Hz|[-> _]]; [|congruence]. rewrite Z.mod_small by lia. destruct s; [reflexivity|congruence|reflexivity].
  - intros x. now apply splat_holds.
Qed.
(** A boolean tensor filled with an even number is false everywhere. *)
Theorem C102_full_refuted : forall given sizes k, Forall (fun n => 0 <= n) given -> Forall (fun n => 0 <= n) sizes ->
  exists vs, fold_full D round (Some given) (Some sizes) (Some (EInt 1 Signless)) (Some (SInt (2 * k))) = TLit sizes vs /\ holds sizes vs (fun _ => OfInt 0).
Proof.
  intros given sizes k G S. apply nonneg_spec in G. apply nonneg_spec in S as S'. unfold fold_full, fold_fill, int_attr. rewrite G, S'. cbn [andb]. replace ((2 * k) mod 2 ^ 1) with 0 by (change (2 ^ 1) with 2; rewrite Z.mul_comm, Z.mod_mul; lia). now apply splat_holds.
Qed.
Theorem C102_fill_applies : forall given sizes ty fill, fold_full D round given sizes ty fill <> TNone <->
  exists g r, given = Some g /\ sizes = Some r /\ Forall (fun n => 0 <= n) g /\ Forall (fun n => 0 <= n) r /\
    ((exists w s z, ty = Some (EInt w s) /\ fill = Some (SInt z)) \/ exists x, ty = Some EFloat /\ fill = Some (SFloat x)).
Proof.
  intros given sizes ty fill. unfold fold_full, fold_fill, splat_of. split.
  - intros H. destruct given as [g|]; [|congruence]. destruct sizes as [r|]; [|congruence]. destruct ty as [e|]; [|congruence]. exists g, r. split; auto. split; auto.
    destruct (all_nonneg g) eqn:Ng; [|cbn in H; congruence]. destruct (all_nonneg r) eqn:Nr; [|cbn in H; congruence]. apply nonneg_spec in Ng, Nr. split; auto. split; auto. cbn [andb] in H.
    destruct e as [|w s|]; destruct fill as [[z|x]|]; try congruence; eauto 6.
  - intros (g & r & -> & -> & Ng & Nr & H). apply nonneg_spec in Ng, Nr. rewrite Ng, Nr. cbn [andb]. destruct H as [(w & s & z & -> & ->)|(x & -> & ->)]; discriminate.
Qed.
(** * Numbers as tensors *)
Theorem C102_num_to_tensor_partial : forall out, Forall (fun n => 0 <= n) out ->
  (forall w s z, - 2 ^ 63 <= z < 2 ^ 63 -> exists vs, fold_num_to_tensor D round (Some (IntA 64 Signless (z mod 2 ^ 64))) (Some out) (Some (EInt w s)) = TLit out vs /\ holds out vs (fun _ => OfInt (z mod 2 ^ w))) /\
  (forall x, exists vs, fold_num_to_tensor D round (Some (FloatA x)) (Some out) (Some EFloat) = TLit out vs /\ holds out vs (fun _ => OfFloat (round x))).
Proof.
  intros out P. split.
  - intros w s z Hz. cbn [fold_num_to_tensor]. unfold int_attr. rewrite sext_of_mod by auto. now apply splat_holds.
  - intros x. now apply splat_holds.
Qed.
Theorem C102_num_to_tensor_refuted : forall out w s u x, fold_num_to_tensor D round (Some (IntA w s u)) (Some out) (Some EFloat) = TBad /\
  fold_num_to_tensor D round (Some (FloatA x)) (Some out) (Some (EInt w s)) = TBad.
Proof. split; reflexivity. Qed.
End Props.

(** * Arithmetic on rank 0 *)
(** The integer an operand of rank 0 holds: signed of 64 bits, or a boolean. *)
Inductive holds_int : operand0 -> Z -> Prop :=
| of_number : forall z, holds_int (Number z) z
| of_source : forall w z, w = 64 \/ w = 1 -> holds_int (Tensor (Some w) (Some 0) (FromNumber z)) z
| of_signed : forall u, 0 <= u < 2 ^ 64 -> holds_int (Tensor (Some 64) (Some 0) (FromLiteral Signed true u)) (value_of Signed 64 u)
| of_bool : forall u, 0 <= u < 2 -> holds_int (Tensor (Some 1) (Some 0) (FromLiteral Signless true u)) u.
Lemma scalar_int_spec : forall o z, holds_int o z -> scalar_int o = Some z.
Proof.
  intros o z H. destruct H as [z|w z Hw|u Hu|u Hu]; cbn [scalar_int]; auto.
  - destruct Hw as [->| ->]; reflexivity.
  - cbn [Z.eqb Pos.eqb orb is_signed]. now rewrite sext_value by lia.
Qed.
Lemma floor_quotient_small : forall x y, - 2 ^ 53 < x < 2 ^ 53 -> - 2 ^ 53 < y < 2 ^ 53 -> y <> 0 -> FoldFloatModel.floor_quotient x y = x / y.
Proof.
  intros x y Hx Hy N.
  assert (H := FoldFloatProps.C97_floordiv_partial {| FoldModel.val := 0; FoldModel.cst := Some x; FoldModel.is_size := false |} {| FoldModel.val := 1; FoldModel.cst := Some y; FoldModel.is_size := false |} x y eq_refl eq_refl Hx Hy N).
  unfold FoldFloatModel.fold_floordiv, FoldModel.binary_int in H. cbn [FoldModel.cst] in H. rewrite (proj2 (Z.eqb_neq y 0) N) in H. unfold FoldModel.checked in H. destruct (FoldModel.fits _) in H; [|discriminate]. congruence.
Qed.
Theorem C102_rank_zero_partial : forall lhs rhs a l r k c, holds_int lhs l -> holds_int rhs r -> holds_int a k ->
  rewrite_0d Add lhs rhs (Some a) c = Some (Int (l + r * k)) /\ rewrite_0d Sub lhs rhs (Some a) c = Some (Int (l - r * k)) /\ rewrite_0d Rsub lhs rhs (Some a) c = Some (Int (r - l * k)) /\
  rewrite_0d Mul lhs rhs None c = Some (Int (l * r)) /\ rewrite_0d (Div None) lhs rhs None c = Some (Quotient l r) /\ (r <> 0 -> rewrite_0d (Div (Some true)) lhs rhs None c = Some (Int (l / r))) /\
  (r <> 0 -> - 2 ^ 53 < l < 2 ^ 53 -> - 2 ^ 53 < r < 2 ^ 53 -> rewrite_0d (Div (Some false)) lhs rhs None true = Some (Int (Z.quot l r))).
Proof.
  intros lhs rhs a l r k c Hl Hr Hk. apply scalar_int_spec in Hl, Hr, Hk. unfold rewrite_0d. rewrite Hl, Hr. cbn [obind]. rewrite Hk. cbn [obind].
  do 5 (split; [reflexivity|]). split.
  - intros N. now rewrite (proj2 (Z.eqb_neq r 0) N).
  - intros N Bl Br. rewrite (proj2 (Z.eqb_neq r 0) N). do 2 f_equal. unfold trunc_quotient. rewrite floor_quotient_small by lia. rewrite Z.quot_div by auto. ring.
Qed.
(** The sum of two true elements of rank 0 is the integer 2, which is false as a boolean; constants that no double equals are divided wrongly. *)
Theorem C102_rank_zero_refuted : forall D round c,
  let true0 := Tensor (Some 1) (Some 0) (FromLiteral Signless true 1) in
  (exists z, rewrite_0d Add true0 true0 (Some (Number 1)) c = Some (Int z) /\ fold_num_to_tensor D round (Some (IntA 64 Signless (z mod 2 ^ 64))) (Some []) (Some (EInt 1 Signless)) = TLit [] [OfInt 0]) /\
  rewrite_0d (Div (Some false)) (Number (2 ^ 53 + 1)) (Number 1) None true = Some (Int (2 ^ 53)).
Proof. intros D round c. cbv zeta. split; [exists 2; split; reflexivity|vm_compute; reflexivity]. Qed.
Theorem C102_rank_zero_applies : forall op lhs rhs a c x, rewrite_0d op lhs rhs a c = Some x ->
  (exists l r, scalar_int lhs = Some l /\ scalar_int rhs = Some r) /\ (op = Add \/ op = Sub \/ op = Rsub -> exists o k, a = Some o /\ scalar_int o = Some k) /\ (op = Div (Some false) -> c = true).
Proof.
  intros op lhs rhs a c x H. unfold rewrite_0d in H. destruct (scalar_int lhs) as [l|]; [|discriminate]. destruct (scalar_int rhs) as [r|]; [|discriminate]. split; [eauto|]. split.
  - intros Ho. destruct a as [o|]; [|destruct Ho as [->|[->| ->]]; discriminate]. destruct (scalar_int o) as [k|] eqn:E; [eauto|]. cbn [obind] in H. rewrite E in H. destruct Ho as [->|[->| ->]]; discriminate.
  - intros ->. destruct c; [auto|discriminate].
Qed.
Theorem C102_scalar_applies : forall o z, scalar_int o = Some z ->
  o = Number z \/ exists w src, o = Tensor (Some w) (Some 0) src /\ (w = 64 \/ w = 1) /\ (src = FromNumber z \/ exists s u, src = FromLiteral s true u).
Proof.
  intros o z H. destruct o as [y| |[w|] [[| |]|] src]; cbn in H; try discriminate; [left; congruence|]. right. exists w, src. split; auto. destruct (Z.eqb_spec w 64), (Z.eqb_spec w 1); cbn in H; try discriminate; (split; [auto|]);
    (destruct src as [s [|] u|y|]; [right; eauto|discriminate|left; congruence|discriminate]).
Qed.

Example C102_nonvacuous :
  let t := DenseInt 8 Signed {| l_sizes := [3]; l_splat := false; l_elements := [5; 255; 7] |} : attr Z in
  fold_compare Z compare_z Lt (Some t) (Some (IntA 64 Signless 6)) (Some [3]) true = TLit [3] [true; true; false] /\
  covers [3] {| l_sizes := [3]; l_splat := false; l_elements := [5; 255; 7] |} (fun idx => match idx with [0] => 5 | [1] => 255 | _ => 7 end) /\
  fold_compare Z compare_z Eq (Some (DenseInt 1 Signless {| l_sizes := [2]; l_splat := true; l_elements := [1] |})) (Some (IntA 64 Signless 1)) (Some [2]) true = TLit [2] [false; false] /\
  fold_ones Z 1 (fun x => x) (Some [2]) (Some [2]) (Some (EInt 32 Signed)) = TLit [2] [OfInt 1; OfInt 1] /\
  rewrite_0d (Div (Some false)) (Number (-7)) (Number 2) None true = Some (Int (-3)).
Proof. cbv zeta. split; [vm_compute; reflexivity|]. split; [split; reflexivity|]. split; [vm_compute; reflexivity|]. split; [reflexivity|]. vm_compute. reflexivity. Qed.
Print Assumptions C102_compare_partial.
Print Assumptions C102_compare_refuted.
Print Assumptions C102_compare_float.
Print Assumptions C102_compare_mixed_refuted.
Print Assumptions C102_compare_applies.
Print Assumptions C102_eq_tensor_partial.
Print Assumptions C102_eq_tensor_refuted.
Print Assumptions C102_eq_tensor_applies.
Print Assumptions C102_item_partial.
Print Assumptions C102_item_float.
Print Assumptions C102_item_refuted.
Print Assumptions C102_item_number.
Print Assumptions C102_ones_zeros.
Print Assumptions C102_full_partial.
Print Assumptions C102_full_refuted.
Print Assumptions C102_fill_applies.
Print Assumptions C102_num_to_tensor_partial.
Print Assumptions C102_num_to_tensor_refuted.
Print Assumptions C102_rank_zero_partial.
Print Assumptions C102_rank_zero_refuted.
Print Assumptions C102_rank_zero_applies.
Print Assumptions C102_scalar_applies.
