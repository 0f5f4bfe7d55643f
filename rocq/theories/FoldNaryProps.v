(** C101: folding arithmetic on constant tensors. *)
From Coq Require Import ZArith Lia List Bool.
From Verif Require Import Prelude FoldTensorModel FoldTensorSpec FoldSliceProps FoldTensorProps FoldNaryModel.
From Verif Require FoldFloatModel FoldFloatProps.
Import ListNotations.
Open Scope Z_scope.

(** The integer that bits stand for. *)
Definition value_of (s : sign) (w u : Z) : Z := match s with Signed => if u <? 2 ^ (w - 1) then u else u - 2 ^ w | _ => u end.
(** A literal gives the element g idx at each index of the result: it has the result's sizes, or it is a splat. *)
Definition covers {A} (out : list Z) (l : literal A) (g : list Z -> A) : Prop :=
  if l_splat l then exists x, hd_error (l_elements l) = Some x /\ forall idx, g idx = x else l_sizes l = out /\ holds out (l_elements l) g.

Section Props.
Variable D : Type.
Variable of_int : Z -> D.
Variable round : D -> D.
(** Integer tensors of at most bw bits, and integer constants. *)
Definition int_tensor (out : list Z) (bw : Z) (a : attr D) (v : list Z -> Z) : Prop :=
  exists w s l g, a = DenseInt w s l /\ 0 < w <= bw /\ covers out l g /\ (forall idx, 0 <= g idx < 2 ^ w) /\ forall idx, v idx = value_of s w (g idx).
Definition int_scalar (a : attr D) (z : Z) : Prop := a = IntA 64 Signless (z mod 2 ^ 64) /\ - 2 ^ 63 <= z < 2 ^ 63.
Definition fp_tensor (out : list Z) (a : attr D) (v : list Z -> D) : Prop := exists l, a = DenseFp l /\ covers out l v.
Definition splat (a : attr D) : bool := match a with DenseFp l => l_splat l | DenseInt _ _ l => l_splat l | _ => true end.

Lemma position_all : forall out, Forall (fun n => 0 <= n) out -> map (position out) (indices out) = zrange 0 (product out).
Proof.
  intros out P. induction P as [|n r Pn P IH]; [reflexivity|]. change (product (n :: r)) with (n * product r). assert (Pr := product_nonneg r P). cbn [indices].
  assert (Z1 : forall x y z, x <= y <= z -> zrange x z = zrange x y ++ zrange y z).
  { intros x y z Hy. remember (Z.to_nat (z - y)) as q eqn:Er. revert z Hy Er. induction q as [|q IHr]; intros z Hy Er.
    - replace z with y by lia. rewrite (zrange_nil y y) by lia. now rewrite app_nil_r.
    - replace z with (z - 1 + 1) by lia. rewrite !zrange_snoc by lia. rewrite (IHr (z - 1)) by lia. now rewrite app_assoc. }
  assert (Sh : forall q a b c, q = Z.to_nat (b - a) -> map (fun p => c + p) (zrange a b) = zrange (c + a) (c + b)).
  { induction q as [|q IHq]; intros a b c Eq; [rewrite !zrange_nil by lia; reflexivity|]. rewrite (zrange_cons a b), (zrange_cons (c + a) (c + b)) by lia. cbn [map]. f_equal.
    rewrite (IHq (a + 1) b c) by lia. f_equal. lia. }
  remember (Z.to_nat n) as q eqn:Eq. revert n Pn Eq. induction q as [|q IHq]; intros n Pn Eq.
  - replace n with 0 by lia. reflexivity.
  - replace n with (n - 1 + 1) by lia. rewrite zrange_snoc by lia. rewrite flat_map_app, map_app. cbn [flat_map]. rewrite app_nil_r.
    rewrite (Z1 0 ((n - 1) * product r) ((n - 1 + 1) * product r)) by nia. f_equal.
    + rewrite <- (IHq (n - 1)) by lia. rewrite <- !flat_map_concat_map || idtac. clear. induction (zrange 0 (n - 1)) as [|i l IHl]; [reflexivity|]. cbn [flat_map]. rewrite !map_app. f_equal; auto.
    + rewrite map_map. cbn [position]. rewrite <- (map_map (position r) (fun p => (n - 1) * product r + p)). rewrite IH, (Sh (Z.to_nat (product r - 0))) by auto. f_equal; ring.
Qed.
Lemma element_at_covers : forall A out (l : literal A) g, Forall (fun n => 0 <= n) out -> covers out l g ->
  (forall idx, within out idx -> element_at l (position out idx) = Got (g idx)) /\ (l_splat l = true -> forall q idx, element_at l q = Got (g idx)).
Proof.
  intros A out l g P C. unfold covers in C. unfold element_at. destruct (l_splat l).
  - destruct C as (x & Ex & G). rewrite Ex. split; [intros idx _|intros _ q idx]; now rewrite G.
  - destruct C as [_ H]. split; [|discriminate]. intros idx W. now rewrite (read_position _ _ _ g _ P H W).
Qed.
(** What an operand gives the folder at each position. *)
Definition delivers {B} (out : list Z) (a : attr D) (value : Z -> got B) (v : list Z -> B) : Prop :=
  (forall idx, within out idx -> value (position out idx) = Got (v idx)) /\ (splat a = true -> forall q idx, value q = Got (v idx)) /\ fits D out a = true.
Lemma same_sizes_refl : forall l, same_sizes l l = true.
Proof. intros l. unfold same_sizes. now apply sizes_eqb_spec. Qed.
Lemma sext_spec : forall w u, 0 < w -> sext (AP w u) = value_of Signed w u.
Proof.
  intros w u Pw. unfold sext, value_of. cbn [bits width]. assert (E : 2 ^ w = 2 * 2 ^ (w - 1)) by (rewrite <- Z.pow_succ_r by lia; f_equal; lia).
  destruct (Z.ltb_spec (2 * u) (2 ^ w)), (Z.ltb_spec u (2 ^ (w - 1))); auto; lia.
Qed.
Lemma value_of_mod : forall s w u, 0 < w -> 0 <= u < 2 ^ w -> value_of s w u mod 2 ^ w = u.
Proof.
  intros s w u Pw Hu. assert (P : 0 < 2 ^ w) by (apply Z.pow_pos_nonneg; lia). destruct s; cbn [value_of]; try (apply Z.mod_small; lia).
  destruct (Z.ltb_spec u (2 ^ (w - 1))); [apply Z.mod_small; lia|]. replace (u - 2 ^ w) with (u + (-1) * 2 ^ w) by ring. rewrite Z.mod_add by lia. apply Z.mod_small; lia.
Qed.
Lemma extend_spec : forall bw s w u, 0 < w <= bw -> 0 <= u < 2 ^ w -> extend bw s (AP w u) = AP bw (value_of s w u mod 2 ^ bw).
Proof.
  intros bw s w u Hw Hu. unfold extend. cbn [width]. destruct (Z.ltb_spec w bw).
  - f_equal. f_equal. destruct s; cbn [is_signed value_of]; auto. rewrite sext_spec by lia. reflexivity.
  - replace bw with w by lia. rewrite value_of_mod by lia. reflexivity.
Qed.
Lemma int_tensor_delivers : forall out bw a v, Forall (fun n => 0 <= n) out -> int_tensor out bw a v -> delivers out a (fun i => int_value D bw i a) (fun idx => AP bw (v idx mod 2 ^ bw)).
Proof.
  intros out bw a v P (w & s & l & g & -> & Hw & C & Hg & Hv). destruct (element_at_covers _ out l g P C) as [E1 E2]. split; [|split].
  - intros idx W. cbn [int_value]. rewrite (E1 idx W), extend_spec, Hv by auto. reflexivity.
  - intros Sp q idx. cbn [int_value]. rewrite (E2 Sp q idx), extend_spec, Hv by auto. reflexivity.
  - cbn [fits]. unfold covers in C. destruct (l_splat l); auto. destruct C as [<- _]. apply same_sizes_refl.
Qed.
Lemma int_scalar_delivers : forall out bw a z, bw <= 64 -> int_scalar a z -> delivers out a (fun i => int_value D bw i a) (fun _ => AP 64 (z mod 2 ^ 64)).
Proof.
  intros out bw a z Hb (-> & Hz). assert (E : extend bw Signless (AP 64 (z mod 2 ^ 64)) = AP 64 (z mod 2 ^ 64)) by (unfold extend; cbn [width]; destruct (Z.ltb_spec 64 bw); [lia|auto]).
  split; [|split; auto]; intros; cbn [int_value]; now rewrite E.
Qed.
Lemma gather_got : forall A (l : list A), gather (map Got l) = Got l.
Proof. intros A. induction l as [|x l IH]; cbn; auto. now rewrite IH. Qed.
Lemma gather_values : forall B C (h : B -> got C) (k : B -> C) l, (forall x, In x l -> h x = Got (k x)) -> gather (map h l) = Got (map k l).
Proof. intros B C h k l H. rewrite <- (gather_got _ (map k l)), map_map. f_equal. now apply map_ext_in. Qed.
Lemma all_some_some : forall A (l : list A), all_some (map Some l) = Some l.
Proof. intros A. induction l as [|x l IH]; cbn; auto. now rewrite IH. Qed.
Lemma run : forall B C out attrs (value : Z -> attr D -> got B) (vs : list (list Z -> B)) (h : list B -> got C) (c : list Z -> C) (wrap : C -> option (element D)) (e : list Z -> element D),
  Forall (fun n => 0 <= n) out -> Forall2 (fun a v => delivers out a (fun i => value i a) v) attrs vs -> (forall idx, h (map (fun v => v idx) vs) = Got (c idx)) -> (forall idx, wrap (c idx) = Some (e idx)) ->
  exists es, results D out (gather (map (fun i => match gather (map (value i) attrs) with Got xs => h xs | Unsupported => Unsupported | Failed => Failed end)
      (zrange 0 (if all_splats D attrs then 1 else product out)))) wrap = TLit out es /\ holds out es e.
Proof.
  intros B C out attrs value vs h c wrap e P Hd Hh Hw. destruct (all_splats D attrs) eqn:Sp.
  - assert (G : forall idx, gather (map (value 0) attrs) = Got (map (fun v => v idx) vs)).
    { intros idx. clear Hh. unfold all_splats in Sp. induction Hd as [|a v attrs vs (_ & Hs & _) Hd IH]; [reflexivity|]. cbn [forallb] in Sp. apply andb_prop in Sp as [S1 S2].
      cbn [map gather]. rewrite (Hs S1 0 idx), (IH S2). reflexivity. }
    change (zrange 0 1) with [0]. cbn [map]. rewrite (G []), (Hh []). cbn [gather results]. cbn [mapM]. rewrite (Hw []). cbn [obind]. unfold dense, splat_of.
    assert (Ce : forall idx, within out idx -> e idx = e []).
    { intros idx _. assert (c idx = c []) by (assert (Q := Hh idx); assert (Q' := Hh []); rewrite G in * || idtac; assert (E : map (fun v => v idx) vs = map (fun v : list Z -> B => v []) vs) by (assert (U := G idx); rewrite (G []) in U; congruence); rewrite E in Q; congruence).
      assert (W := Hw idx). rewrite H, Hw in W. congruence. }
    assert (Pr := product_nonneg out P). eexists. split; [destruct (Z.eqb_spec (zlen [e []]) (product out)) as [E1|]; [|reflexivity]|].
    + rewrite (f_equal (TLit out) (x := [e []]) (y := repeat (e []) (Z.to_nat (product out)))); [reflexivity|]. rewrite <- E1. reflexivity.
    + now apply holds_splat.
  - assert (G : forall idx, In idx (indices out) -> (match gather (map (value (position out idx)) attrs) with Got xs => h xs | Unsupported => Unsupported | Failed => Failed end) = Got (c idx)).
    { intros idx Hi. apply in_indices in Hi. assert (Q : gather (map (value (position out idx)) attrs) = Got (map (fun v => v idx) vs)).
      { clear Hh Sp. induction Hd as [|a v attrs vs (Hs & _ & _) Hd IH]; [reflexivity|]. cbn [map gather]. rewrite (Hs idx Hi), IH. reflexivity. }
      rewrite Q. apply Hh. }
    rewrite <- (position_all out P), map_map. rewrite (gather_values _ _ _ c _ G). cbn [results]. rewrite (mapM_map_some _ _ _ wrap c e) by auto.
    unfold dense. rewrite zlen_map, (zlen_indices out P), Z.eqb_refl. eexists. split; reflexivity.
Qed.
Lemma fits_all : forall B out attrs (value : Z -> attr D -> got B) vs, Forall2 (fun a v => delivers out a (fun i => value i a) v) attrs vs -> forallb (fits D out) attrs = true.
Proof. intros B out attrs value vs H. induction H as [|a v attrs vs (_ & _ & F) H IH]; cbn [forallb]; auto. now rewrite F. Qed.
(** Small enough to be folded. *)
Definition small (out : list Z) (attrs : list (attr D)) : Prop := forallb splat attrs = true \/ product out <= 16.
Lemma nary_int : forall out attrs vs bw s fp f (c : list Z -> Z), Forall (fun n => 0 <= n) out -> Forall2 (fun a v => delivers out a (fun i => int_value D bw i a) v) attrs vs -> small out attrs ->
  (forall idx, f (map (fun v => v idx) vs) = Some (AP bw (c idx))) ->
  exists es, nary D of_int round (map Some attrs) (Some out) (Some (EInt bw s)) fp (Some f) = TLit out es /\ holds out es (fun idx => OfInt (c idx)).
Proof.
  intros out attrs vs bw s fp f c P Hd Sm Hf. unfold nary. rewrite all_some_some. cbv zeta.
  replace (all_splats D attrs || (product out <=? 16)) with true by (symmetry; apply orb_true_iff; destruct Sm; [now left|right; lia]). rewrite (fits_all _ _ _ _ _ Hd), orb_true_r. cbn [negb].
  apply (run _ _ out attrs (int_value D bw) vs (fun xs => match f xs with Some a => Got a | None => Failed end) (fun idx => AP bw (c idx))); auto.
  - intros idx. now rewrite Hf.
  - intros idx. cbn [width bits]. now rewrite Z.eqb_refl.
Qed.
Lemma nary_fp : forall out attrs vs f int, Forall (fun n => 0 <= n) out -> Forall2 (fun a v => delivers out a (fun i => fp_value D of_int i a) v) attrs vs -> small out attrs ->
  exists es, nary D of_int round (map Some attrs) (Some out) (Some EFloat) (Some f) int = TLit out es /\ holds out es (fun idx => OfFloat (round (f (map (fun v => v idx) vs)))).
Proof.
  intros out attrs vs f int P Hd Sm. unfold nary. rewrite all_some_some. cbv zeta.
  replace (all_splats D attrs || (product out <=? 16)) with true by (symmetry; apply orb_true_iff; destruct Sm; [now left|right; lia]). rewrite (fits_all _ _ _ _ _ Hd), orb_true_r. cbn [negb].
  apply (run _ _ out attrs (fp_value D of_int) vs (fun xs => Got (round (f xs))) (fun idx => round (f (map (fun v => v idx) vs)))); auto.
Qed.
Lemma nary_fails : forall out attrs vs bw s fp f, Forall (fun n => 0 <= n) out -> Forall2 (fun a v => delivers out a (fun i => int_value D bw i a) v) attrs vs -> small out attrs ->
  (forallb splat attrs = true \/ 0 < product out) -> (forall idx, f (map (fun v => v idx) vs) = None) ->
  nary D of_int round (map Some attrs) (Some out) (Some (EInt bw s)) fp (Some f) = TBad.
Proof.
  intros out attrs vs bw s fp f P Hd Sm Ne Hf. unfold nary. rewrite all_some_some. cbv zeta.
  replace (all_splats D attrs || (product out <=? 16)) with true by (symmetry; apply orb_true_iff; destruct Sm; [now left|right; lia]). rewrite (fits_all _ _ _ _ _ Hd), orb_true_r. cbn [negb].
  set (q := if all_splats D attrs then 1 else product out). assert (Pq : 0 < q). { unfold q. destruct Ne as [Ne|Ne]; [change (all_splats D attrs = true) in Ne; rewrite Ne; lia|]. destruct (all_splats D attrs); lia. }
  rewrite (zrange_cons 0 q) by auto. cbn [map].
  assert (G : exists idx, gather (map (int_value D bw 0) attrs) = Got (map (fun v => v idx) vs)).
  { unfold q in Pq. destruct (all_splats D attrs) eqn:Sp.
    - exists []. clear Hf Ne Sm Pq q. unfold all_splats in Sp. induction Hd as [|a v attrs vs (_ & Hs & _) Hd IH]; [reflexivity|]. cbn [forallb] in Sp. apply andb_prop in Sp as [S1 S2].
      cbn [map gather]. rewrite (Hs S1 0 []), (IH S2). reflexivity.
    - assert (Z0 : In 0 (map (position out) (indices out))) by (rewrite (position_all out P); apply in_zrange; lia). apply in_map_iff in Z0 as (idx & Ei & Hi). apply in_indices in Hi. exists idx.
      clear Hf Sp Ne Sm. induction Hd as [|a v attrs vs (Hs & _ & _) Hd IH]; [reflexivity|]. cbn [map gather]. rewrite <- Ei at 1. rewrite (Hs idx Hi), IH. reflexivity. }
  destruct G as [idx G]. rewrite G, Hf. reflexivity.
Qed.
Lemma unmodded : forall w a b, (a mod 2 ^ w + b mod 2 ^ w) mod 2 ^ w = (a + b) mod 2 ^ w.
Proof. intros. symmetry. apply Zplus_mod. Qed.

Lemma ap_add_mod : forall w x y, ap_add (AP w (x mod 2 ^ w)) (AP w (y mod 2 ^ w)) = Some (AP w ((x + y) mod 2 ^ w)).
Proof. intros w x y. unfold ap_add, ap_op. cbn [width bits]. rewrite Z.eqb_refl. do 2 f_equal. symmetry. apply Zplus_mod. Qed.
Lemma ap_sub_mod : forall w x y, ap_sub (AP w (x mod 2 ^ w)) (AP w (y mod 2 ^ w)) = Some (AP w ((x - y) mod 2 ^ w)).
Proof. intros w x y. unfold ap_sub, ap_op. cbn [width bits]. rewrite Z.eqb_refl. do 2 f_equal. symmetry. apply Zminus_mod. Qed.
Lemma ap_mul_mod : forall w x y, ap_mul (AP w (x mod 2 ^ w)) (AP w (y mod 2 ^ w)) = Some (AP w ((x * y) mod 2 ^ w)).
Proof. intros w x y. unfold ap_mul, ap_op. cbn [width bits]. rewrite Z.eqb_refl. do 2 f_equal. symmetry. apply Zmult_mod. Qed.
Lemma ap_new_fits : forall w v, 0 <= v < 2 ^ w -> ap_new w v = Some (AP w v).
Proof. intros w v H. unfold ap_new. destruct (Z.leb_spec 0 v), (Z.ltb_spec v (2 ^ w)); cbn [andb]; auto; lia. Qed.
Lemma limited_spec : forall w u, 0 <= w <= 64 -> 0 <= u < 2 ^ w -> limited (AP w u) = u.
Proof. intros w u Hw Hu. unfold limited. cbn [bits]. assert (2 ^ w <= 2 ^ 64) by (apply Z.pow_le_mono_r; lia). lia. Qed.
Lemma mod_range : forall z w, 0 <= w -> 0 <= z mod 2 ^ w < 2 ^ w.
Proof. intros z w H. apply Z.mod_pos_bound. apply Z.pow_pos_nonneg; lia. Qed.
(** A constant of 64 bits brought to the width of the tensor. *)
Lemma new_scalar : forall bw z, 0 < bw <= 64 -> - 2 ^ 63 <= z < 2 ^ 63 -> bw = 64 \/ 0 <= z < 2 ^ bw -> ap_new bw (limited (AP 64 (z mod 2 ^ 64))) = Some (AP bw (z mod 2 ^ bw)).
Proof.
  intros bw z Hb Hz [->|H].
  - rewrite limited_spec by (try lia; apply mod_range; lia). apply ap_new_fits. apply mod_range. lia.
  - rewrite limited_spec by (try lia; apply mod_range; lia). assert (2 ^ 63 < 2 ^ 64) by (apply Z.pow_lt_mono_r; lia). rewrite (Z.mod_small z (2 ^ 64)) by lia. rewrite (Z.mod_small z (2 ^ bw)) by lia. now apply ap_new_fits.
Qed.
Lemma new_scalar_fails : forall bw z, 0 < bw < 64 -> - 2 ^ 63 <= z < 2 ^ 63 -> ~ 0 <= z < 2 ^ bw -> ap_new bw (limited (AP 64 (z mod 2 ^ 64))) = None.
Proof.
  intros bw z Hb Hz H. rewrite limited_spec by (try lia; apply mod_range; lia). unfold ap_new.
  assert (2 ^ bw <= 2 ^ 63) by (apply Z.pow_le_mono_r; lia). assert (2 ^ 64 = 2 * 2 ^ 63) by (rewrite <- Z.pow_succ_r by lia; f_equal; lia).
  destruct (Z.ltb_spec (z mod 2 ^ 64) (2 ^ bw)) as [L|L]; [|now rewrite andb_false_r]. exfalso. apply H. destruct (Z_lt_le_dec z 0) as [N|N].
  - assert (E : z mod 2 ^ 64 = z + 2 ^ 64). { replace z with (z + 2 ^ 64 + (-1) * 2 ^ 64) at 1 by ring. rewrite Z.mod_add by lia. apply Z.mod_small. lia. }
    rewrite E in L. lia.
  - rewrite Z.mod_small in L by lia. lia.
Qed.
Ltac deliver := repeat match goal with
  | |- Forall2 _ [] [] => constructor
  | |- Forall2 _ (_ :: _) (_ :: _) => constructor
  | |- delivers _ _ _ _ => first [apply int_tensor_delivers; assumption | apply int_scalar_delivers; [lia|assumption]]
  end.

Variables add sub mul div fmod : D -> D -> D.
Variables floor trunc : D -> D.
Variable junk : D.
(** C101. Sums and differences of integer tensors of 64 bits. *)
Theorem C101_int_add_sub_partial : forall out s A B C a b z, Forall (fun n => 0 <= n) out -> int_tensor out 64 A a -> int_tensor out 64 B b -> int_scalar C z -> small out [A; B; C] ->
  (exists es, fold_add_tensor D of_int round add mul junk [Some A; Some B; Some C] (Some out) (Some (EInt 64 s)) = TLit out es /\ holds out es (fun idx => OfInt ((a idx + b idx * z) mod 2 ^ 64))) /\
  (exists es, fold_sub_tensor D of_int round sub mul junk [Some A; Some B; Some C] (Some out) (Some (EInt 64 s)) = TLit out es /\ holds out es (fun idx => OfInt ((a idx - b idx * z) mod 2 ^ 64))).
Proof.
  intros out s A B C a b z P HA HB HC Sm. split.
  - apply (nary_int out [A; B; C] [(fun idx => AP 64 (a idx mod 2 ^ 64)); (fun idx => AP 64 (b idx mod 2 ^ 64)); (fun _ => AP 64 (z mod 2 ^ 64))]); auto; [deliver|].
    intros idx. cbn [map]. unfold int_add, ternary_int. rewrite ap_mul_mod. cbn [obind]. apply ap_add_mod.
  - apply (nary_int out [A; B; C] [(fun idx => AP 64 (a idx mod 2 ^ 64)); (fun idx => AP 64 (b idx mod 2 ^ 64)); (fun _ => AP 64 (z mod 2 ^ 64))]); auto; [deliver|].
    intros idx. cbn [map]. unfold int_sub, ternary_int. rewrite ap_mul_mod. cbn [obind]. apply ap_sub_mod.
Qed.
(** ... with a constant: of any width, if the constants fit it. *)
Theorem C101_int_scalar_partial : forall out bw s A B C a y z, Forall (fun n => 0 <= n) out -> 0 < bw <= 64 -> int_tensor out bw A a -> int_scalar B y -> int_scalar C z -> small out [A; B; C] ->
  bw = 64 \/ 0 <= y < 2 ^ bw -> bw = 64 \/ 0 <= z < 2 ^ bw ->
  (exists es, fold_add_scalar D of_int round add mul junk [Some A; Some B; Some C] (Some out) (Some (EInt bw s)) = TLit out es /\ holds out es (fun idx => OfInt ((a idx + y * z) mod 2 ^ bw))) /\
  (exists es, fold_sub_scalar D of_int round sub mul junk [Some A; Some B; Some C] (Some out) (Some (EInt bw s)) = TLit out es /\ holds out es (fun idx => OfInt ((a idx - y * z) mod 2 ^ bw))).
Proof.
  intros out bw s A B C a y z P Hb HA HB HC Sm Fy Fz. assert (Hy := proj2 HB). assert (Hz := proj2 HC). split.
  - apply (nary_int out [A; B; C] [(fun idx => AP bw (a idx mod 2 ^ bw)); (fun _ => AP 64 (y mod 2 ^ 64)); (fun _ => AP 64 (z mod 2 ^ 64))]); auto; [deliver|].
    intros idx. cbn [map]. unfold int_add_scalar, ternary_int. cbn [width]. rewrite !new_scalar by auto. cbn [obind]. rewrite ap_mul_mod. cbn [obind]. apply ap_add_mod.
  - apply (nary_int out [A; B; C] [(fun idx => AP bw (a idx mod 2 ^ bw)); (fun _ => AP 64 (y mod 2 ^ 64)); (fun _ => AP 64 (z mod 2 ^ 64))]); auto; [deliver|].
    intros idx. cbn [map]. unfold int_sub_scalar, ternary_int. cbn [width]. rewrite !new_scalar by auto. cbn [obind]. rewrite ap_mul_mod. cbn [obind]. apply ap_sub_mod.
Qed.
Theorem C101_int_rsub_mul_partial : forall out s A B C a y z, Forall (fun n => 0 <= n) out -> int_tensor out 64 A a -> int_scalar B y -> int_scalar C z -> small out [A; B; C] ->
  (exists es, fold_rsub_scalar D of_int round sub mul junk [Some A; Some B; Some C] (Some out) (Some (EInt 64 s)) = TLit out es /\ holds out es (fun idx => OfInt ((y - a idx * z) mod 2 ^ 64))) /\
  (exists es, fold_mul_scalar D of_int round mul junk [Some A; Some B] (Some out) (Some (EInt 64 s)) = TLit out es /\ holds out es (fun idx => OfInt ((a idx * y) mod 2 ^ 64))).
Proof.
  intros out s A B C a y z P HA HB HC Sm. split.
  - apply (nary_int out [A; B; C] [(fun idx => AP 64 (a idx mod 2 ^ 64)); (fun _ => AP 64 (y mod 2 ^ 64)); (fun _ => AP 64 (z mod 2 ^ 64))]); auto; [deliver|].
    intros idx. cbn [map]. unfold int_rsub, ternary_int. rewrite ap_mul_mod. cbn [obind]. apply ap_sub_mod.
  - apply (nary_int out [A; B] [(fun idx => AP 64 (a idx mod 2 ^ 64)); (fun _ => AP 64 (y mod 2 ^ 64))]); auto; [deliver| |].
    + destruct Sm as [Sm|Sm]; [left|now right]. cbn [forallb] in *. apply andb_prop in Sm as [S1 S2]. apply andb_prop in S2 as [S2 _]. now rewrite S1, S2.
    + intros idx. cbn [map]. unfold int_mul_scalar, FoldNaryModel.binary_int. apply ap_mul_mod.
Qed.
(** Products of integer tensors, of any width. *)
Theorem C101_int_mul : forall out bw s A B a b, Forall (fun n => 0 <= n) out -> 0 < bw <= 64 -> int_tensor out bw A a -> int_tensor out bw B b -> small out [A; B] ->
  exists es, fold_mul_tensor D of_int round mul junk [Some A; Some B] (Some out) (Some (EInt bw s)) = TLit out es /\ holds out es (fun idx => OfInt ((a idx * b idx) mod 2 ^ bw)).
Proof.
  intros out bw s A B a b P Hb HA HB Sm.
  apply (nary_int out [A; B] [(fun idx => AP bw (a idx mod 2 ^ bw)); (fun idx => AP bw (b idx mod 2 ^ bw))]); auto; [deliver|].
  intros idx. cbn [map]. unfold int_mul, binary_int. cbn [width]. assert (R := mod_range (b idx) bw ltac:(lia)). rewrite limited_spec, ap_new_fits by lia. cbn [obind]. apply ap_mul_mod.
Qed.
(** Narrower tensors meet constants of 64 bits, and an assertion that the widths are equal fails. *)
Theorem C101_narrow_refuted : forall out bw s A B B' C a b y z, Forall (fun n => 0 <= n) out -> 0 < bw < 64 -> int_tensor out bw A a -> int_tensor out bw B b -> int_scalar B' y -> int_scalar C z ->
  small out [A; B; C] -> (forallb splat [A; B; C] = true \/ 0 < product out) -> small out [A; B'; C] -> (forallb splat [A; B'; C] = true \/ 0 < product out) ->
  fold_add_tensor D of_int round add mul junk [Some A; Some B; Some C] (Some out) (Some (EInt bw s)) = TBad /\
  fold_sub_tensor D of_int round sub mul junk [Some A; Some B; Some C] (Some out) (Some (EInt bw s)) = TBad /\
  fold_rsub_scalar D of_int round sub mul junk [Some A; Some B'; Some C] (Some out) (Some (EInt bw s)) = TBad /\
  fold_mul_scalar D of_int round mul junk [Some A; Some B'] (Some out) (Some (EInt bw s)) = TBad /\
  fold_remainder D of_int round fmod junk [Some A; Some B'] (Some out) (Some (EInt bw s)) = TBad.
Proof.
  intros out bw s A B B' C a b y z P Hb HA HB HB' HC S1 N1 S2 N2. assert (W : forall x x', ap_mul (AP bw x) (AP 64 x') = None) by (intros; unfold ap_mul, ap_op; cbn [width]; destruct (Z.eqb_spec bw 64); [lia|auto]).
  assert (two : forall q, (forallb splat [A; B'; C] = true \/ q) -> (forallb splat [A; B'] = true \/ q)).
  { intros q [H|H]; auto. left. cbn [forallb] in *. apply andb_prop in H as [H1 H2]. apply andb_prop in H2 as [H2 _]. now rewrite H1, H2. }
  assert (D3 : Forall2 (fun a v => delivers out a (fun i => int_value D bw i a) v) [A; B; C] [(fun idx => AP bw (a idx mod 2 ^ bw)); (fun idx => AP bw (b idx mod 2 ^ bw)); (fun _ => AP 64 (z mod 2 ^ 64))]) by deliver.
  assert (D3' : Forall2 (fun a v => delivers out a (fun i => int_value D bw i a) v) [A; B'; C] [(fun idx => AP bw (a idx mod 2 ^ bw)); (fun _ => AP 64 (y mod 2 ^ 64)); (fun _ => AP 64 (z mod 2 ^ 64))]) by deliver.
  assert (D2' : Forall2 (fun a v => delivers out a (fun i => int_value D bw i a) v) [A; B'] [(fun idx => AP bw (a idx mod 2 ^ bw)); (fun _ => AP 64 (y mod 2 ^ 64))]) by deliver.
  split; [|split; [|split; [|split]]].
  - apply (nary_fails out [A; B; C] _ bw s _ _ P D3); auto. intros idx. cbn [map]. unfold int_add, ternary_int. now rewrite W.
  - apply (nary_fails out [A; B; C] _ bw s _ _ P D3); auto. intros idx. cbn [map]. unfold int_sub, ternary_int. now rewrite W.
  - apply (nary_fails out [A; B'; C] _ bw s _ _ P D3'); auto. intros idx. cbn [map]. unfold int_rsub, ternary_int. now rewrite W.
  - apply (nary_fails out [A; B'] _ bw s _ _ P D2'); [now apply two|now apply two|]. intros idx. cbn [map]. unfold int_mul_scalar, binary_int. now rewrite W.
  - apply (nary_fails out [A; B'] _ bw s _ _ P D2'); [now apply two|now apply two|]. intros idx. cbn [map]. unfold int_rem, binary_int, ap_rem. cbn [width]. destruct (Z.eqb_spec bw 64); [lia|auto].
Qed.
Theorem C101_negative_scalar_refuted : forall out bw s A B C a y z, Forall (fun n => 0 <= n) out -> 0 < bw < 64 -> int_tensor out bw A a -> int_scalar B y -> int_scalar C z -> ~ 0 <= y < 2 ^ bw ->
  small out [A; B; C] -> (forallb splat [A; B; C] = true \/ 0 < product out) ->
  fold_add_scalar D of_int round add mul junk [Some A; Some B; Some C] (Some out) (Some (EInt bw s)) = TBad /\
  fold_sub_scalar D of_int round sub mul junk [Some A; Some B; Some C] (Some out) (Some (EInt bw s)) = TBad.
Proof.
  intros out bw s A B C a y z P Hb HA HB HC Ny Sm Ne. assert (Hy := proj2 HB).
  assert (D3 : Forall2 (fun a v => delivers out a (fun i => int_value D bw i a) v) [A; B; C] [(fun idx => AP bw (a idx mod 2 ^ bw)); (fun _ => AP 64 (y mod 2 ^ 64)); (fun _ => AP 64 (z mod 2 ^ 64))]) by deliver.
  split; apply (nary_fails out [A; B; C] _ bw s _ _ P D3); auto; intros idx; cbn [map]; unfold int_add_scalar, int_sub_scalar, ternary_int; cbn [width]; now rewrite new_scalar_fails.
Qed.
(** ** Quotients *)
Theorem C101_int_div_partial : forall out bw s A B a b m, Forall (fun n => 0 <= n) out -> 0 < bw <= 64 -> int_tensor out bw A a -> int_tensor out bw B b -> small out [A; B] ->
  (forall idx, 0 <= a idx < 2 ^ (bw - 1) /\ 0 < b idx < 2 ^ (bw - 1) /\ a idx / b idx <= 2 ^ 53) ->
  exists es, fold_div_mode D of_int round div floor trunc junk (Some m) [Some A; Some B] (Some out) (Some (EInt bw s)) = TLit out es /\ holds out es (fun idx => OfInt (a idx / b idx)).
Proof.
  intros out bw s A B a b m P Hb HA HB Sm H. unfold fold_div_mode.
  apply (nary_int out [A; B] [(fun idx => AP bw (a idx mod 2 ^ bw)); (fun idx => AP bw (b idx mod 2 ^ bw))]); auto; [deliver|].
  intros idx. destruct (H idx) as (Ha & Hbb & Hq). cbn [map]. unfold int_div, binary_int. assert (E2 : 2 ^ bw = 2 * 2 ^ (bw - 1)) by (rewrite <- Z.pow_succ_r by lia; f_equal; lia).
  assert (L64 : 2 ^ (bw - 1) <= 2 ^ 63) by (apply Z.pow_le_mono_r; lia). assert (L64' : 2 ^ 63 < 2 ^ 64) by (apply Z.pow_lt_mono_r; lia). assert (L53 : 2 ^ 53 < 2 ^ 63) by (apply Z.pow_lt_mono_r; lia).
  rewrite !Z.mod_small by lia. assert (U : forall u x, 0 <= x < 2 ^ (bw - 1) -> as_uint64 u (AP bw x) = x).
  { intros u x Hx. unfold as_uint64, zext. cbn [bits]. destruct u; auto. rewrite sext_spec by lia. cbn [value_of]. destruct (Z.ltb_spec x (2 ^ (bw - 1))); [apply Z.mod_small; lia|lia]. }
  cbv zeta. rewrite !U by lia. destruct (Z.eqb_spec (b idx) 0); [lia|]. assert (Q0 : 0 <= a idx / b idx) by (apply Z.div_pos; lia).
  assert (Qa : a idx / b idx <= a idx) by (apply Z.div_le_upper_bound; nia).
  rewrite FoldFloatProps.C97_small_integers_are_doubles by (generalize dependent (a idx / b idx); intros; lia).
  destruct (Z.ltb_spec (a idx / b idx) (2 ^ 63)) as [_|C]; [|exfalso; generalize dependent (a idx / b idx); intros; lia]. cbn [width]. rewrite Z.max_id. apply ap_new_fits. generalize dependent (a idx / b idx); intros; lia.
Qed.
(** A negative dividend is taken for a large positive one: what is computed is not the quotient, however it is rounded. *)
Theorem C101_int_div_refuted : forall x y m, - 2 ^ 63 <= x < 0 -> 0 < y < 2 ^ 63 -> int_div false [AP 64 (x mod 2 ^ 64); AP 64 (y mod 2 ^ 64)] = Some (AP 64 m) ->
  m < 2 ^ 63 /\ 2 ^ 63 <= (x / y) mod 2 ^ 64 /\ (x <= - y -> m <> Z.quot x y mod 2 ^ 64).
Proof.
  intros x y m Hx Hy H. assert (E64 : 2 ^ 64 = 2 * 2 ^ 63) by reflexivity. unfold int_div, binary_int in H. cbv zeta in H. destruct (_ =? 0) in H; [discriminate|].
  match type of H with (if ?t <? _ then _ else _) = _ => generalize dependent t end. intros t H. destruct (Z.ltb_spec t (2 ^ 63)) as [L|]; [|discriminate].
  unfold ap_new in H. destruct (_ && _) in H; [|discriminate]. assert (t = m) by congruence. subst t. clear H. split; auto.
  assert (G : forall q, - 2 ^ 63 <= q < 0 -> 2 ^ 63 <= q mod 2 ^ 64). { intros q Hq. replace q with (q + 2 ^ 64 + (-1) * 2 ^ 64) at 1 by ring. rewrite Z.mod_add, Z.mod_small by lia. lia. }
  split.
  - apply G. split; [apply Z.div_le_lower_bound; nia|]. apply Z.div_lt_upper_bound; lia.
  - intros Lx E. assert (2 ^ 63 <= Z.quot x y mod 2 ^ 64); [|lia]. apply G. replace x with (- (- x)) by ring. rewrite Z.quot_opp_l by lia. rewrite Z.quot_div_nonneg by lia.
    assert (Q1 : 1 <= - x / y) by (apply Z.div_le_lower_bound; lia). assert (Q2 : - x / y <= - x) by (apply Z.div_le_upper_bound; nia). generalize dependent (- x / y). intros. lia.
Qed.
(** Unsigned types: also for elements that use the highest bit. *)
Theorem C101_int_div_unsigned_partial : forall out bw s A B a b m, is_unsigned s = true -> Forall (fun n => 0 <= n) out -> 0 < bw <= 64 -> int_tensor out bw A a -> int_tensor out bw B b -> small out [A; B] ->
  (forall idx, 0 <= a idx < 2 ^ bw /\ 0 < b idx < 2 ^ bw /\ a idx / b idx <= 2 ^ 53) ->
  exists es, fold_div_mode D of_int round div floor trunc junk (Some m) [Some A; Some B] (Some out) (Some (EInt bw s)) = TLit out es /\ holds out es (fun idx => OfInt (a idx / b idx)).
Proof.
  intros out bw s A B a b m Us P Hb HA HB Sm H. unfold fold_div_mode. rewrite Us.
  apply (nary_int out [A; B] [(fun idx => AP bw (a idx mod 2 ^ bw)); (fun idx => AP bw (b idx mod 2 ^ bw))]); auto; [deliver|].
  intros idx. destruct (H idx) as (Ha & Hbb & Hq). cbn [map]. unfold int_div, binary_int. assert (L53 : 2 ^ 53 < 2 ^ 63) by (apply Z.pow_lt_mono_r; lia).
  rewrite !Z.mod_small by lia. cbv zeta. unfold as_uint64, zext. cbn [bits]. destruct (Z.eqb_spec (b idx) 0); [lia|]. assert (Q0 : 0 <= a idx / b idx) by (apply Z.div_pos; lia).
  assert (Qa : a idx / b idx <= a idx) by (apply Z.div_le_upper_bound; nia).
  rewrite FoldFloatProps.C97_small_integers_are_doubles by (generalize dependent (a idx / b idx); intros; lia).
  destruct (Z.ltb_spec (a idx / b idx) (2 ^ 63)) as [_|C]; [|exfalso; generalize dependent (a idx / b idx); intros; lia]. cbn [width]. rewrite Z.max_id. apply ap_new_fits. generalize dependent (a idx / b idx); intros; lia.
Qed.
(** ** Remainders *)
Lemma sext_mod : forall x, - 2 ^ 63 <= x < 2 ^ 63 -> sext (AP 64 (x mod 2 ^ 64)) = x.
Proof.
  intros x Hx. rewrite sext_spec by lia. cbn [value_of]. change (64 - 1) with 63. assert (E64 : 2 ^ 64 = 2 * 2 ^ 63) by reflexivity. destruct (Z_lt_le_dec x 0) as [N|N].
  - assert (E : x mod 2 ^ 64 = x + 2 ^ 64). { replace x with (x + 2 ^ 64 + (-1) * 2 ^ 64) at 1 by ring. rewrite Z.mod_add by lia. apply Z.mod_small. lia. }
    rewrite E. destruct (Z.ltb_spec (x + 2 ^ 64) (2 ^ 63)); lia.
  - rewrite Z.mod_small by lia. destruct (Z.ltb_spec x (2 ^ 63)); lia.
Qed.
(** What is computed has the sign of the dividend; torch.remainder has the divisor's. *)
Theorem C101_remainder_partial : forall out A B a y, Forall (fun n => 0 <= n) out -> int_tensor out 64 A a -> int_scalar B y -> y <> 0 -> (forall idx, - 2 ^ 63 <= a idx < 2 ^ 63) -> small out [A; B] ->
  exists es, fold_remainder D of_int round fmod junk [Some A; Some B] (Some out) (Some (EInt 64 Signed)) = TLit out es /\ holds out es (fun idx => OfInt (Z.rem (a idx) y mod 2 ^ 64)) /\
    (0 < y -> (forall idx, 0 <= a idx) -> forall idx, Z.rem (a idx) y = a idx mod y) /\ (y < 0 -> (forall idx, a idx <= 0) -> forall idx, Z.rem (a idx) y = a idx mod y).
Proof.
  intros out A B a y P HA HB Ny Ha Sm. assert (Hy := proj2 HB). unfold fold_remainder. cbn [is_unsigned].
  destruct (nary_int out [A; B] [(fun idx => AP 64 (a idx mod 2 ^ 64)); (fun _ => AP 64 (y mod 2 ^ 64))] 64 Signed (Some (binary D junk fmod)) (int_rem false) (fun idx => Z.rem (a idx) y mod 2 ^ 64) P) as (es & E & H); auto; [deliver| |].
  - intros idx. cbn [map]. unfold int_rem, binary_int, ap_rem. cbn [width]. cbn [Z.eqb Pos.eqb andb]. rewrite !sext_mod by auto. cbn [bits].
    destruct (Z.eqb_spec (y mod 2 ^ 64) 0) as [C|_]; [|reflexivity]. exfalso. assert (Q := sext_mod y Hy). rewrite C in Q. apply Ny. rewrite <- Q. reflexivity.
  - exists es. split; auto. split; auto. split.
    + intros Py Pa idx. apply Z.rem_mod_nonneg; auto.
    + intros Py Pa idx. specialize (Pa idx). rewrite <- (Z.opp_involutive y), <- (Z.opp_involutive (a idx)). rewrite Z.rem_opp_opp, Z.mod_opp_opp by lia. f_equal. apply Z.rem_mod_nonneg; lia.
Qed.
Theorem C101_remainder_refuted : forall x y, x < 0 < y -> x mod y <> 0 -> Z.rem x y <> x mod y.
Proof.
  intros x y H N E. assert (B := Z.mod_pos_bound x y ltac:(lia)). assert (R : Z.rem x y <= 0) by (apply Z.rem_nonpos; lia). lia.
Qed.

(** * Floats *)
Inductive fp_operand (out : list Z) (a : attr D) (v : list Z -> D) : Prop :=
| is_fp_tensor : fp_tensor out a v -> fp_operand out a v
| is_int_tensor : forall bw v', int_tensor out bw a v' -> (forall idx, v idx = of_int (v' idx)) -> fp_operand out a v
| is_float : forall x, a = FloatA x -> (forall idx, v idx = x) -> fp_operand out a v
| is_int : forall z, int_scalar a z -> 0 <= z -> (forall idx, v idx = of_int z) -> fp_operand out a v.
Lemma to_double_spec : forall s w u, 0 < w -> int_to_double D of_int s (AP w u) = of_int (value_of s w u).
Proof. intros s w u Pw. unfold int_to_double. destruct s; cbn [is_signed value_of]; auto. now rewrite sext_spec. Qed.
Lemma fp_operand_delivers : forall out a v, Forall (fun n => 0 <= n) out -> fp_operand out a v -> delivers out a (fun i => fp_value D of_int i a) v.
Proof.
  intros out a v P [(l & -> & C)|bw v' (w & s & l & g & -> & Hw & C & Hg & Hv) E|x -> E|z (-> & Hz) Pz E].
  - destruct (element_at_covers _ out l v P C) as [E1 E2]. split; [exact E1|]. split; [exact E2|]. cbn [fits]. unfold covers in C. destruct (l_splat l); auto. destruct C as [<- _]. apply same_sizes_refl.
  - destruct (element_at_covers _ out l g P C) as [E1 E2]. split; [|split].
    + intros idx W. cbn [fp_value]. rewrite (E1 idx W), to_double_spec, E, Hv by lia. reflexivity.
    + intros Sp q idx. cbn [fp_value]. rewrite (E2 Sp q idx), to_double_spec, E, Hv by lia. reflexivity.
    + cbn [fits]. unfold covers in C. destruct (l_splat l); auto. destruct C as [<- _]. apply same_sizes_refl.
  - split; [|split; auto]; intros; cbn [fp_value]; now rewrite E.
  - assert (Q : int_to_double D of_int Signless (AP 64 (z mod 2 ^ 64)) = of_int z).
    { rewrite to_double_spec by lia. cbn [value_of]. rewrite Z.mod_small; auto. assert (2 ^ 63 < 2 ^ 64) by (apply Z.pow_lt_mono_r; lia). lia. }
    split; [|split; auto]; intros; cbn [fp_value]; now rewrite Q, E.
Qed.
(** C101. Float results: each element is computed in double precision and rounded once. *)
Theorem C101_float_partial : forall out A B C a b c m, Forall (fun n => 0 <= n) out -> fp_operand out A a -> fp_operand out B b -> fp_operand out C c -> small out [A; B; C] -> small out [A; B] ->
  let folds3 f r := exists es, f [Some A; Some B; Some C] (Some out) (Some EFloat) = TLit out es /\ holds out es (fun idx => OfFloat (round (r (a idx) (b idx) (c idx)))) in
  let folds2 f r := exists es, f [Some A; Some B] (Some out) (Some EFloat) = TLit out es /\ holds out es (fun idx => OfFloat (round (r (a idx) (b idx)))) in
  folds3 (fold_add_tensor D of_int round add mul junk) (fun x y z => add x (mul y z)) /\ folds3 (fold_add_scalar D of_int round add mul junk) (fun x y z => add x (mul y z)) /\
  folds3 (fold_sub_tensor D of_int round sub mul junk) (fun x y z => sub x (mul y z)) /\ folds3 (fold_sub_scalar D of_int round sub mul junk) (fun x y z => sub x (mul y z)) /\
  folds3 (fold_rsub_scalar D of_int round sub mul junk) (fun x y z => sub y (mul x z)) /\
  folds2 (fold_mul_tensor D of_int round mul junk) mul /\ folds2 (fold_mul_scalar D of_int round mul junk) mul /\ folds2 (fold_remainder D of_int round fmod junk) fmod /\
  folds2 (fold_div_mode D of_int round div floor trunc junk m) (fun x y => match m with None => div x y | Some true => floor (div x y) | Some false => trunc (div x y) end).
Proof.
  intros out A B C a b c m P HA HB HC S3 S2. cbv zeta.
  assert (D3 : Forall2 (fun a v => delivers out a (fun i => fp_value D of_int i a) v) [A; B; C] [a; b; c]) by (repeat (apply Forall2_cons; [now apply fp_operand_delivers|]); apply Forall2_nil).
  assert (D2 : Forall2 (fun a v => delivers out a (fun i => fp_value D of_int i a) v) [A; B] [a; b]) by (repeat (apply Forall2_cons; [now apply fp_operand_delivers|]); apply Forall2_nil).
  repeat split; (apply (nary_fp out [A; B; C] [a; b; c]); assumption) || (apply (nary_fp out [A; B] [a; b]); assumption).
Qed.
(** A negative integer constant is read as 2^64 more. *)
Theorem C101_float_negative_refuted : forall out A B a z, Forall (fun n => 0 <= n) out -> fp_operand out A a -> int_scalar B z -> z < 0 -> small out [A; B] ->
  exists es, fold_mul_scalar D of_int round mul junk [Some A; Some B] (Some out) (Some EFloat) = TLit out es /\ holds out es (fun idx => OfFloat (round (mul (a idx) (of_int (z + 2 ^ 64))))).
Proof.
  intros out A B a z P HA (-> & Hz) Nz Sm. apply (nary_fp out [A; IntA 64 Signless (z mod 2 ^ 64)] [a; (fun _ => of_int (z + 2 ^ 64))]); auto.
  constructor; [now apply fp_operand_delivers|]. constructor; [|constructor].
  assert (Q : int_to_double D of_int Signless (AP 64 (z mod 2 ^ 64)) = of_int (z + 2 ^ 64)).
  { rewrite to_double_spec by lia. cbn [value_of]. f_equal. assert (2 ^ 64 = 2 * 2 ^ 63) by reflexivity. replace z with (z + 2 ^ 64 + (-1) * 2 ^ 64) at 1 by ring. rewrite Z.mod_add by lia. apply Z.mod_small. lia. }
  split; [|split; auto]; intros; cbn [fp_value]; now rewrite Q.
Qed.
(** Nothing else is folded. *)
Theorem C101_not_folded : forall ops sizes ty fp int, nary D of_int round ops sizes ty fp int <> TNone ->
  (forall o, In o ops -> o <> None) /\ exists out e, sizes = Some out /\ ty = Some e /\ e <> EOther /\
  ((forall a, In (Some a) ops -> splat a = true) \/ product out <= 16 /\ forall a, In (Some a) ops -> splat a = false -> match a with DenseFp l => l_sizes l = out | DenseInt _ _ l => l_sizes l = out | _ => True end).
Proof.
  intros ops sizes ty fp int H. unfold nary in H. destruct (all_some ops) as [attrs|] eqn:As; [|congruence].
  assert (Eo : ops = map Some attrs). { clear H. revert attrs As. induction ops as [|[a|] ops IH]; intros attrs As; cbn in As; try discriminate; [now injection As as <-|]. destruct (all_some ops) as [r|]; [|discriminate]. cbn in As. injection As as <-. cbn. f_equal. auto. }
  split; [intros o Ho; rewrite Eo in Ho; apply in_map_iff in Ho as (x & <- & _); discriminate|].
  destruct sizes as [out|]; [|congruence]. destruct ty as [e|]; [|congruence]. exists out, e. split; auto. split; auto. cbv zeta in H.
  assert (In_iff : forall a, In (Some a) ops <-> In a attrs) by (intros a; rewrite Eo, in_map_iff; split; [intros (x & [= ->] & ?); auto|eauto]).
  assert (Ne : e <> EOther) by (intros ->; congruence). split; auto.
  destruct (all_splats D attrs) eqn:Sp.
  - left. intros a Ha. apply In_iff in Ha. unfold all_splats in Sp. rewrite forallb_forall in Sp. apply (Sp a Ha).
  - right. cbn [orb] in H. destruct (Z.leb_spec (product out) 16); [|destruct e; cbn in H; congruence]. split; auto. intros a Ha Sa. apply In_iff in Ha.
    destruct (forallb (fits D out) attrs) eqn:F; [|destruct e; cbn in H; congruence]. rewrite forallb_forall in F. specialize (F a Ha).
    assert (inj : forall x y : list Z, same_sizes x y = true -> x = y). { intros x y E. unfold same_sizes in E. apply sizes_eqb_spec in E. revert y E. induction x; intros [|]; cbn; try discriminate; auto. intros [= -> E]. f_equal. auto. }
    destruct a; auto; cbn [splat] in Sa; cbn [fits] in F; rewrite Sa in F; cbn [orb] in F; now apply inj.
Qed.
End Props.

Example C101_nonvacuous :
  let t := DenseInt 64 Signed {| l_sizes := [3]; l_splat := false; l_elements := [5; 2 ^ 64 - 1; 7] |} : attr Z in
  let k z := Some (IntA 64 Signless (z mod 2 ^ 64)) in
  int_tensor Z [3] 64 t (fun idx => match idx with [0] => 5 | [1] => -1 | _ => 7 end) /\
  fold_add_scalar Z (fun z => z) (fun x => x) Z.add Z.mul 0 [Some t; k 10; k (-2)] (Some [3]) (Some (EInt 64 Signed)) = TLit [3] [OfInt (2 ^ 64 - 15); OfInt (2 ^ 64 - 21); OfInt (2 ^ 64 - 13)] /\
  fold_div_mode Z (fun z => z) (fun x => x) Z.div (fun x => x) (fun x => x) 0 (Some true) [Some t; Some (DenseInt 64 Signed {| l_sizes := [3]; l_splat := true; l_elements := [4] |})] (Some [3]) (Some (EInt 64 Signed)) =
    TLit [3] [OfInt 1; OfInt 4611686018427387904; OfInt 1].
Proof.
  cbv zeta. split; [|split].
  - exists 64, Signed, {| l_sizes := [3]; l_splat := false; l_elements := [5; 2 ^ 64 - 1; 7] |}, (fun idx => match idx with [0] => 5 | [1] => 2 ^ 64 - 1 | _ => 7 end).
    split; auto. split; [lia|]. split; [split; reflexivity|]. split; intros idx; destruct idx as [|[|[| |]|] [|]]; cbn; lia || reflexivity.
  - vm_compute. reflexivity.
  - vm_compute. reflexivity.
Qed.
Print Assumptions C101_int_add_sub_partial.
Print Assumptions C101_int_scalar_partial.
Print Assumptions C101_int_rsub_mul_partial.
Print Assumptions C101_int_mul.
Print Assumptions C101_narrow_refuted.
Print Assumptions C101_negative_scalar_refuted.
Print Assumptions C101_int_div_partial.
Print Assumptions C101_int_div_unsigned_partial.
Print Assumptions C101_int_div_refuted.
Print Assumptions C101_remainder_partial.
Print Assumptions C101_remainder_refuted.
Print Assumptions C101_float_partial.
Print Assumptions C101_float_negative_refuted.
Print Assumptions C101_not_folded.
