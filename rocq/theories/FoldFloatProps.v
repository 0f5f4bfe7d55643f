(** C97: folding with doubles. *)
From Coq Require Import ZArith Lia List Bool.
From Coq Require Import Floats.SpecFloat.
From Verif Require Import Prelude FoldModel FoldProps FoldFloatModel.
Import ListNotations.
Open Scope Z_scope.

(** m * 2^e is the double nearest to n / d: the error is at most half of 2^e, and when it is
    half of it the significand is even. Both sides are multiplied by what makes them integers. *)
Definition nearest_double (n d m e : Z) : Prop :=
  2 ^ 52 <= m < 2 ^ 53 /\
  let n' := n * 2 ^ Z.max (- e) 0 in let d' := d * 2 ^ Z.max e 0 in
  2 * Z.abs (n' - m * d') <= d' /\ (2 * Z.abs (n' - m * d') = d' -> Z.even m = true).

Lemma nearest_spec : forall n d, 0 < d -> 2 * Z.abs (n - nearest n d * d) <= d /\ (2 * Z.abs (n - nearest n d * d) = d -> Z.even (nearest n d) = true).
Proof.
  intros n d P. unfold nearest. assert (D := Z.div_mod n d ltac:(lia)). assert (B := Z.mod_pos_bound n d P).
  set (q := n / d) in *. set (r := n mod d) in *. clearbody q r.
  destruct (Z.ltb_spec (2 * r) d) as [L|L].
  - replace (n - q * d) with r by lia. rewrite Z.abs_eq by lia. split; [lia|]. intros; lia.
  - destruct (Z.ltb_spec d (2 * r)) as [L'|L'].
    + replace (n - (q + 1) * d) with (r - d) by lia. rewrite Z.abs_neq by lia. split; [lia|]. intros; lia.
    + destruct (Z.even q) eqn:Ev.
      * replace (n - q * d) with r by lia. rewrite Z.abs_eq by lia. split; [lia|auto].
      * replace (n - (q + 1) * d) with (r - d) by lia. rewrite Z.abs_neq by lia. split; [lia|]. intros _.
        rewrite Z.even_add, Ev. reflexivity.
Qed.
Lemma nearest_ge : forall n d k, 0 < d -> k * d <= n -> k <= nearest n d.
Proof. intros n d k P H. destruct (nearest_spec n d P) as [A _]. set (m := nearest n d) in *. clearbody m. nia. Qed.
Lemma nearest_le : forall n d k, 0 < d -> n <= k * d -> nearest n d <= k.
Proof. intros n d k P H. destruct (nearest_spec n d P) as [A _]. set (m := nearest n d) in *. clearbody m. nia. Qed.
(** The exponent is that of the binade of the quotient. *)
Definition scaled_between (n d k : Z) : Prop := d * 2 ^ Z.max k 0 <= n * 2 ^ Z.max (- k) 0 /\ n * 2 ^ Z.max (- (k + 1)) 0 < d * 2 ^ Z.max (k + 1) 0.
Lemma binade : forall n d, 0 < n -> 0 < d ->
  let l := Z.log2 n - Z.log2 d in let b := if scale_up d l <=? scale_up n (- l) then l else l - 1 in scaled_between n d b.
Proof.
  intros n d Pn Pd l. cbv zeta. unfold scale_up, scaled_between.
  destruct (Z.log2_spec n Pn) as [N1 N2]. destruct (Z.log2_spec d Pd) as [D1 D2].
  assert (Gn := Z.log2_nonneg n). assert (Gd := Z.log2_nonneg d).
  set (i := Z.log2 n) in *. set (j := Z.log2 d) in *. clearbody i j.
  rewrite Z.pow_succ_r in N2, D2 by lia.
  assert (U : forall k, n * 2 ^ Z.max (- (k + 1)) 0 < d * 2 ^ Z.max (k + 1) 0 <-> n * 2 ^ Z.max (- k) 0 < 2 * (d * 2 ^ Z.max k 0)).
  { intros k. destruct (Z.leb_spec 0 k).
    - rewrite (Z.max_r (- (k + 1))), (Z.max_r (- k)), !Z.max_l, Z.pow_add_r by lia. change (2 ^ 1) with 2. change (2 ^ 0) with 1. lia.
    - rewrite (Z.max_r (k + 1)), (Z.max_r k), !Z.max_l by lia. replace (- k) with (- (k + 1) + 1) by lia. rewrite Z.pow_add_r by lia.
      change (2 ^ 1) with 2. change (2 ^ 0) with 1. lia. }
  (* n / d is between 2^(l-1) and 2^(l+1) *)
  assert (L : d * 2 ^ Z.max (l - 1) 0 <= n * 2 ^ Z.max (- (l - 1)) 0).
  { unfold l. destruct (Z.leb_spec 0 (i - j - 1)).
    - rewrite (Z.max_r (- _)), Z.max_l by lia. change (2 ^ 0) with 1.
      assert (E : 2 ^ i = 2 * 2 ^ j * 2 ^ (i - j - 1)).
      { rewrite <- Z.pow_succ_r, <- Z.pow_add_r by lia. f_equal. lia. }
      assert (0 < 2 ^ (i - j - 1)) by (apply Z.pow_pos_nonneg; lia). nia.
    - rewrite (Z.max_l (- _)), Z.max_r by lia. change (2 ^ 0) with 1.
      assert (E : 2 * 2 ^ j = 2 ^ i * 2 ^ (- (i - j - 1))).
      { rewrite <- Z.pow_succ_r, <- Z.pow_add_r by lia. f_equal. lia. }
      assert (0 < 2 ^ (- (i - j - 1))) by (apply Z.pow_pos_nonneg; lia). nia. }
  assert (H : n * 2 ^ Z.max (- l) 0 < 2 * (d * 2 ^ Z.max l 0)).
  { unfold l. destruct (Z.leb_spec 0 (i - j)).
    - rewrite (Z.max_r (- _)), Z.max_l by lia. change (2 ^ 0) with 1.
      assert (E : 2 ^ i = 2 ^ j * 2 ^ (i - j)) by (rewrite <- Z.pow_add_r by lia; f_equal; lia).
      assert (0 < 2 ^ (i - j)) by (apply Z.pow_pos_nonneg; lia). nia.
    - rewrite (Z.max_l (- _)), Z.max_r by lia. change (2 ^ 0) with 1.
      assert (E : 2 ^ j = 2 ^ i * 2 ^ (- (i - j))) by (rewrite <- Z.pow_add_r by lia; f_equal; lia).
      assert (0 < 2 ^ (- (i - j))) by (apply Z.pow_pos_nonneg; lia). nia. }
  destruct (Z.leb_spec (d * 2 ^ Z.max l 0) (n * 2 ^ Z.max (- l) 0)) as [C|C].
  - split; [exact C|]. apply U. exact H.
  - split; [exact L|]. replace (l - 1 + 1) with l by lia. exact C.
Qed.
(** Doubles of 53 bits: in terms of the exponent e of the last bit. *)
Lemma binade_52 : forall n d b, 0 < n -> 0 < d -> scaled_between n d b ->
  2 ^ 52 * (d * 2 ^ Z.max (b - 52) 0) <= n * 2 ^ Z.max (- (b - 52)) 0 < 2 ^ 53 * (d * 2 ^ Z.max (b - 52) 0).
Proof.
  intros n d b Pn Pd [A B].
  assert (K : 2 ^ Z.max (- (b - 52)) 0 * 2 ^ Z.max b 0 = 2 ^ 52 * (2 ^ Z.max (- b) 0 * 2 ^ Z.max (b - 52) 0)).
  { rewrite <- !Z.pow_add_r by lia. f_equal. lia. }
  assert (K' : 2 ^ Z.max (- (b - 52)) 0 * 2 ^ Z.max (b + 1) 0 = 2 ^ 53 * (2 ^ Z.max (- (b + 1)) 0 * 2 ^ Z.max (b - 52) 0)).
  { rewrite <- !Z.pow_add_r by lia. f_equal. lia. }
  assert (P1 : 0 < 2 ^ Z.max b 0) by (apply Z.pow_pos_nonneg; lia). assert (P2 : 0 < 2 ^ Z.max (- b) 0) by (apply Z.pow_pos_nonneg; lia).
  assert (P3 : 0 < 2 ^ Z.max (- (b + 1)) 0) by (apply Z.pow_pos_nonneg; lia). assert (P4 : 0 < 2 ^ Z.max (b + 1) 0) by (apply Z.pow_pos_nonneg; lia).
  assert (P5 : 0 < 2 ^ Z.max (- (b - 52)) 0) by (apply Z.pow_pos_nonneg; lia). assert (P6 : 0 < 2 ^ Z.max (b - 52) 0) by (apply Z.pow_pos_nonneg; lia).
  set (x := 2 ^ Z.max b 0) in *. set (y := 2 ^ Z.max (- b) 0) in *. set (x1 := 2 ^ Z.max (b + 1) 0) in *. set (y1 := 2 ^ Z.max (- (b + 1)) 0) in *.
  set (u := 2 ^ Z.max (- (b - 52)) 0) in *. set (v := 2 ^ Z.max (b - 52) 0) in *. clearbody x y x1 y1 u v.
  assert (Q52 : 0 < 2 ^ 52) by reflexivity. assert (Q53 : 0 < 2 ^ 53) by reflexivity.
  set (t := 2 ^ 52) in *. set (t' := 2 ^ 53) in *. clearbody t t'. split.
  - assert (d * x * u <= n * y * u) by nia. assert (d * (t * (y * v)) <= n * y * u) by (rewrite <- K; nia). nia.
  - assert (n * y1 * u < d * x1 * u) by nia. assert (n * y1 * u < d * (t' * (y1 * v))) by (rewrite <- K'; nia). nia.
Qed.
(** C97. Rounding is to the nearest double, ties to even. *)
Theorem C97_rounding : forall n d m e, 0 < n -> 0 < d -> round_ratio n d = (m, e) -> nearest_double n d m e.
Proof.
  intros n d m e Pn Pd. unfold round_ratio. assert (Bn := binade n d Pn Pd). cbv zeta in *.
  set (b := if _ <=? _ then _ else _) in *. clearbody b. apply binade_52 in Bn; auto. unfold scale_up in *.
  set (n' := n * 2 ^ Z.max (- (b - 52)) 0) in *. set (d' := d * 2 ^ Z.max (b - 52) 0) in *.
  assert (Pd' : 0 < d') by (unfold d'; apply Z.mul_pos_pos; [auto|apply Z.pow_pos_nonneg; lia]).
  destruct (nearest_spec n' d' Pd') as [Ns Ne].
  assert (Lo : 2 ^ 52 <= nearest n' d') by (apply nearest_ge; lia). assert (Hi : nearest n' d' <= 2 ^ 53) by (apply nearest_le; lia).
  destruct (Z.eqb_spec (nearest n' d') (2 ^ 53)) as [E|E]; intros [= <- <-]; unfold nearest_double; cbv zeta.
  - change (Z.pow_pos 2 52) with (2 ^ 52) in *. split; [lia|].
    (* one bit is lost: the number is 2^53 * 2^(b - 52) *)
    rewrite E in Ns. clear Ne Lo Hi E.
    assert (S : exists s, 0 < s /\ (n * 2 ^ Z.max (- (b - 52 + 1)) 0) * s = n' /\ (d * 2 ^ Z.max (b - 52 + 1) 0) * s = 2 * d').
    { unfold n', d'. destruct (Z.leb_spec 0 (b - 52)).
      - exists 1. split; [lia|]. rewrite (Z.max_r (- _)), (Z.max_r (- _)), !Z.max_l, Z.pow_add_r by lia. change (2 ^ 1) with 2. split; ring.
      - exists 2. split; [lia|]. rewrite (Z.max_l (- _)), (Z.max_l (- _)), (Z.max_r (b - 52 + 1)), (Z.max_r (b - 52)) by lia.
        replace (- (b - 52)) with (- (b - 52 + 1) + 1) by lia. rewrite Z.pow_add_r by lia. change (2 ^ 1) with 2. split; ring. }
    clearbody n' d'. set (n2 := n * 2 ^ Z.max (- (b - 52 + 1)) 0) in *. set (d2 := d * 2 ^ Z.max (b - 52 + 1) 0) in *. clearbody n2 d2.
    change (2 ^ 53) with (2 * 2 ^ 52) in Ns. set (t := 2 ^ 52) in *. clearbody t.
    destruct S as (s & Ps & En & Ed).
    assert (A : 2 * Z.abs ((n2 - t * d2) * s) <= d').
    { replace ((n2 - t * d2) * s) with (n' - 2 * t * d'); [lia|]. transitivity (n2 * s - t * (d2 * s)); [rewrite En, Ed; ring|ring]. }
    rewrite Z.abs_mul, (Z.abs_eq s) in A by lia. set (w := Z.abs (n2 - t * d2)) in *. clearbody w. clear - A Ed Ps Pd'.
    assert (4 * w <= d2) by nia. assert (0 < d2) by nia. split; [lia|intros; lia].
  - split; [lia|]. split; auto.
Qed.
Lemma round_exponent : forall n d m e, 0 < n < 2 ^ 53 -> 0 < d -> round_ratio n d = (m, e) -> e <= 0.
Proof.
  intros n d m e Hn Pd. unfold round_ratio. assert (Bn := binade n d ltac:(lia) Pd). cbv zeta in *.
  set (b := if _ <=? _ then _ else _) in *. clearbody b. destruct Bn as [B1 _].
  assert (Hb : b <= 52).
  { destruct (Z.leb_spec b 52) as [|L]; auto. exfalso. rewrite (Z.max_l b), (Z.max_r (- b)) in B1 by lia.
    assert (2 ^ 53 <= 2 ^ b) by (apply Z.pow_le_mono_r; lia). change (2 ^ 0) with 1 in B1. set (p := 2 ^ b) in *. clearbody p. nia. }
  destruct (Z.eqb_spec (nearest (scale_up n (- (b - 52))) (scale_up d (b - 52))) (2 ^ 53)) as [E|E]; intros [= <- <-]; [|lia].
  destruct (Z.eq_dec b 52) as [->|]; [|lia]. exfalso. unfold scale_up in E. change (2 ^ Z.max (- (52 - 52)) 0) with 1 in E.
  change (2 ^ Z.max (52 - 52) 0) with 1 in E. rewrite !Z.mul_1_r in E. assert (G := nearest_le n d (2 ^ 53 - 1) Pd). rewrite E in G. nia.
Qed.

(** An integer of at most 53 bits is a double. *)
Lemma round_exact : forall z, 0 < z <= 2 ^ 53 -> forall m e, round_ratio z 1 = (m, e) -> floor_of m e = z.
Proof.
  intros z Hz m e H. destruct (C97_rounding z 1 m e) as (Hm & Ns & Ne); [lia|lia|auto|]. cbv zeta in *. unfold floor_of.
  destruct (Z.leb_spec 0 e) as [L|L].
  - rewrite (Z.max_r (- e)), (Z.max_l e), Z.mul_1_l in * by lia.
    assert (P : 1 <= 2 ^ e) by (change 1 with (2 ^ 0); apply Z.pow_le_mono_r; lia).
    destruct (Z.eq_dec e 0) as [->|Ze]; [change (2 ^ 0) with 1 in *; lia|].
    destruct (Z.eq_dec z (2 ^ 53)) as [Ez|Nz]; [|assert (e <= 0) by (apply (round_exponent z 1 m e); [lia|lia|exact H]); lia].
    subst z. change (round_ratio (2 ^ 53) 1) with (2 ^ 52, 1) in H. injection H as <- <-. reflexivity.
  - rewrite (Z.max_l (- e)), (Z.max_r e) in * by lia. change (2 ^ 0) with 1 in *. assert (m = z * 2 ^ (- e)) by lia. subst m.
    apply Z.div_mul. apply Z.pow_nonzero; lia.
Qed.
Theorem C97_small_integers_are_doubles : forall z, - 2 ^ 53 <= z <= 2 ^ 53 -> double_of_int z = z.
Proof.
  intros z Hz. unfold double_of_int. destruct (Z.eqb_spec z 0) as [->|N]; auto.
  destruct (round_ratio (Z.abs z) 1) as [m e] eqn:E. rewrite (round_exact (Z.abs z) ltac:(lia) m e E). lia.
Qed.
(** Any other integer becomes the nearest double. *)
Theorem C97_integer_to_double : forall z, z <> 0 -> exists m e, nearest_double (Z.abs z) 1 m e /\
  to_double z = S754_finite (z <? 0) (Z.to_pos m) e /\ double_of_int z = Z.sgn z * floor_of m e.
Proof.
  intros z N. unfold to_double, double_of_int. rewrite (proj2 (Z.eqb_neq z 0) N). destruct (round_ratio (Z.abs z) 1) as [m e] eqn:E.
  exists m, e. split; [apply C97_rounding; auto; lia|]. split; reflexivity.
Qed.

(** The floor of the rounded quotient, of numbers of less than 53 bits, is that of the quotient. *)
Lemma floor_of_div : forall k e, e <= 0 -> floor_of k e = k / 2 ^ (- e).
Proof.
  intros k e L. unfold floor_of. destruct (Z.leb_spec 0 e); auto. replace e with 0 by lia. change (2 ^ 0) with 1. rewrite Z.div_1_r. lia.
Qed.
Lemma round_wide : forall n d m e, 0 < n < 2 ^ 53 -> 0 < d -> round_ratio n d = (m, e) ->
  exists m0 p, 0 < p /\ 2 * Z.abs (n * p - m0 * d) <= d /\ 2 ^ 52 * d <= n * p /\ floor_of m e = m0 / p /\ floor_of (- m) e = (- m0) / p.
Proof.
  intros n d m e Hn Pd H. assert (He := round_exponent n d m e Hn Pd H). unfold round_ratio in H. assert (Bn := binade n d ltac:(lia) Pd). cbv zeta in *.
  set (b := if _ <=? _ then _ else _) in *. clearbody b. apply binade_52 in Bn; [|lia|auto]. unfold scale_up in H.
  assert (Hb : b - 52 <= 0). { destruct (_ =? 2 ^ 53) in H; injection H as _ H; lia. }
  rewrite (Z.max_l (- (b - 52))), (Z.max_r (b - 52)) in * by lia. change (2 ^ 0) with 1 in *. rewrite Z.mul_1_r in *.
  set (p := 2 ^ (- (b - 52))) in *. assert (Pp : 0 < p) by (apply Z.pow_pos_nonneg; lia).
  destruct (nearest_spec (n * p) d Pd) as [Ns _]. exists (nearest (n * p) d), p. split; [auto|]. split; [auto|]. split; [lia|].
  destruct (Z.eqb_spec (nearest (n * p) d) (2 ^ 53)) as [E|E].
  - assert (Em : m = 2 ^ 52 /\ e = b - 52 + 1) by (split; congruence). destruct Em as [-> ->].
    rewrite !floor_of_div by lia. rewrite E.
    assert (Ep : p = 2 * 2 ^ (- (b - 52 + 1))). { unfold p. rewrite <- Z.pow_succ_r by lia. f_equal. lia. }
    assert (0 < 2 ^ (- (b - 52 + 1))) by (apply Z.pow_pos_nonneg; lia). rewrite Ep. change (- 2 ^ 53) with (2 * - 2 ^ 52). change (2 ^ 53) with (2 * 2 ^ 52).
    rewrite !Z.div_mul_cancel_l by lia. auto.
  - injection H as <- <-. rewrite !floor_of_div by lia. auto.
Qed.
Lemma floor_exact : forall n d m e, 0 < n < 2 ^ 53 -> 0 < d < 2 ^ 53 -> round_ratio n d = (m, e) ->
  floor_of m e = n / d /\ floor_of (- m) e = (- n) / d.
Proof.
  intros n d m' e Hn Hd H. destruct (round_wide n d m' e Hn ltac:(lia) H) as (m & p & Pp & Ns & Np & -> & ->).
  assert (Hp : d < 2 * p) by nia.
  clear H. set (k := n / d). assert (D := Z.div_mod n d ltac:(lia)). assert (B := Z.mod_pos_bound n d ltac:(lia)). fold k in D.
  assert (Hk : 0 <= k) by (apply Z.div_pos; lia).
  assert (A1 : k * p <= m) by nia. assert (A2 : m < (k + 1) * p) by nia. split.
  - symmetry. apply (Z.div_unique_pos m p k (m - k * p)); lia.
  - destruct (Z.eq_dec (n mod d) 0) as [Z0|Z0].
    + assert (En : n = k * d) by lia. assert (Em : m = k * p) by nia. rewrite Em, En.
      replace (- (k * p)) with (- k * p) by lia. replace (- (k * d)) with (- k * d) by lia. rewrite !Z.div_mul by lia. reflexivity.
    + assert (A3 : k * p < m) by nia.
      replace (- n / d) with (- (k + 1)); [|apply (Z.div_unique_pos (- n) d (- (k + 1)) (d - n mod d)); lia].
      symmetry. apply (Z.div_unique_pos (- m) p (- (k + 1)) ((k + 1) * p - m)); lia.
Qed.
(** C97. Floor division is Python's, for numbers of less than 53 bits. *)
Theorem C97_floordiv_partial : forall a b x y, cst a = Some x -> cst b = Some y ->
  - 2 ^ 53 < x < 2 ^ 53 -> - 2 ^ 53 < y < 2 ^ 53 -> y <> 0 -> fold_floordiv a b = Attr (x / y).
Proof.
  intros a b x y Ea Eb Hx Hy N. unfold fold_floordiv, binary_int. rewrite Ea, Eb, (proj2 (Z.eqb_neq y 0) N).
  assert (Q : floor_quotient x y = x / y).
  { unfold floor_quotient. rewrite !C97_small_integers_are_doubles by lia. destruct (Z.eqb_spec x 0) as [->|Nx]; [now rewrite Z.div_0_l|].
    destruct (round_ratio (Z.abs x) (Z.abs y)) as [m e] eqn:E.
    destruct (floor_exact (Z.abs x) (Z.abs y) m e) as [F1 F2]; [lia|lia|auto|].
    destruct (Z.lt_trichotomy 0 x) as [Px|[Px|Px]], (Z.lt_trichotomy 0 y) as [Py|[Py|Py]]; try (exfalso; clear - Px Py N Nx; lia).
    - rewrite !Z.sgn_pos by lia. change (1 * 1 * m) with (1 * m). rewrite Z.mul_1_l, F1, !Z.abs_eq by lia. reflexivity.
    - rewrite Z.sgn_pos, Z.sgn_neg by lia. replace (1 * -1 * m) with (- m) by ring. rewrite F2, Z.abs_eq, Z.abs_neq by lia.
      now rewrite Z.div_opp_opp.
    - rewrite Z.sgn_neg, Z.sgn_pos by lia. replace (-1 * 1 * m) with (- m) by ring. rewrite F2, Z.abs_neq, Z.abs_eq by lia.
      now rewrite Z.opp_involutive.
    - rewrite !Z.sgn_neg by lia. replace (-1 * -1 * m) with m by ring. rewrite F1, !Z.abs_neq by lia. now rewrite Z.div_opp_opp. }
  rewrite Q. unfold checked. replace (fits (x / y)) with true; auto. symmetry. apply fits_range. unfold in_range.
  assert (D := Z.div_mod x y N). destruct (Z.lt_trichotomy 0 y) as [Py|[Py|Py]]; [|lia|].
  - assert (B := Z.mod_pos_bound x y Py). set (q := x / y) in *. set (r := x mod y) in *. clearbody q r. change (2 ^ 53) with 9007199254740992 in *. change (2 ^ 63) with 9223372036854775808. nia.
  - assert (B := Z.mod_neg_bound x y Py). set (q := x / y) in *. set (r := x mod y) in *. clearbody q r. change (2 ^ 53) with 9007199254740992 in *. change (2 ^ 63) with 9223372036854775808. nia.
Qed.
(** Beyond, it is not: (2^53 + 1) // 1 is folded to 2^53; and division by zero is undefined. *)
Theorem C97_floordiv_refuted : exists a b x y, cst a = Some x /\ cst b = Some y /\ in_range x /\ y <> 0 /\
  fold_floordiv a b = Attr (x / y - 1) /\ forall a' b' z, cst a' = Some z -> cst b' = Some 0 -> fold_floordiv a' b' = Undefined.
Proof.
  exists {| val := 0; cst := Some (2 ^ 53 + 1); is_size := false |}, {| val := 1; cst := Some 1; is_size := false |}, (2 ^ 53 + 1), 1.
  split; [reflexivity|]. split; [reflexivity|]. split; [unfold in_range; lia|]. split; [lia|]. split; [vm_compute; reflexivity|].
  intros a' b' z A B. unfold fold_floordiv, binary_int. now rewrite A, B.
Qed.

(** * Products *)
Definition product_means (env : nat -> Z) (defs : definitions) : Prop := forall v p, defs v = Some p ->
  env v = env (val (mul_a p)) * env (val (mul_b p)) /\ sees env (mul_a p) /\ sees env (mul_b p).
Lemma split_means : forall env p c o, sees env (mul_a p) -> sees env (mul_b p) -> split_product p = Some (c, o) ->
  env (val (mul_a p)) * env (val (mul_b p)) = env (val o) * c.
Proof.
  intros env p c o Ha Hb. unfold split_product. destruct (cst (mul_a p)) as [x|] eqn:Ea, (cst (mul_b p)) as [y|] eqn:Eb; try discriminate;
    intros [= <- <-]; [rewrite (Ha _ Ea)|rewrite (Hb _ Eb)]; ring.
Qed.
(** C97. A product divided by its own constant is the other operand. *)
Theorem C97_product_quotient : forall env defs a b v, product_means env defs -> sees env a -> sees env b ->
  rewrite_floordiv defs a b = Some v -> cst b <> None -> env (val b) <> 0 -> env (val a) / env (val b) = env v.
Proof.
  intros env defs a b v M Ha Hb H Cb Nb. unfold rewrite_floordiv in H. destruct (cst a) as [x|] eqn:Ea, (cst b) as [y|] eqn:Eb; try congruence.
  destruct (defs (val a)) as [p|] eqn:Ep; [|discriminate]. destruct (split_product p) as [[c o]|] eqn:Es; [|discriminate].
  destruct (one_use p && (c =? y)) eqn:E; [|discriminate]. injection H as <-. apply andb_prop in E as [_ E]. apply Z.eqb_eq in E. subst c.
  destruct (M _ _ Ep) as (Em & Pa & Pb). rewrite Em, (split_means env p y o Pa Pb Es), (Hb _ Eb) in *. now apply Z.div_mul.
Qed.
(** Exactly when the pattern applies. *)
Theorem C97_product_quotient_applies : forall defs a b v, rewrite_floordiv defs a b = Some v <->
  exists c o w p rest, (cst a = Some c /\ cst b = None /\ w = b \/ cst a = None /\ cst b = Some c /\ w = a) /\
    defs (val w) = Some p /\ one_use p = true /\ v = val rest /\
    (o = mul_a p /\ rest = mul_b p \/ o = mul_b p /\ rest = mul_a p) /\ cst o = Some c /\ cst rest = None.
Proof.
  intros defs a b v. assert (L : forall c (w : operand Z), match defs (val w) with
    | Some p => match split_product p with Some (s, rest) => if one_use p && (s =? c) then Some (val rest) else None | None => None end
    | None => None end = Some v <-> exists o p rest, defs (val w) = Some p /\ one_use p = true /\ v = val rest /\
    (o = mul_a p /\ rest = mul_b p \/ o = mul_b p /\ rest = mul_a p) /\ cst o = Some c /\ cst rest = None).
  { intros c w. split.
    - intros H. destruct (defs (val w)) as [p|]; [|discriminate]. unfold split_product in H.
      destruct (cst (mul_a p)) as [x|] eqn:Ea, (cst (mul_b p)) as [y|] eqn:Eb; try discriminate.
      + destruct (one_use p) eqn:Eo; [|discriminate]. destruct (Z.eqb_spec x c) as [->|]; [|discriminate]. injection H as <-.
        exists (mul_a p), p, (mul_b p). auto 10.
      + destruct (one_use p) eqn:Eo; [|discriminate]. destruct (Z.eqb_spec y c) as [->|]; [|discriminate]. injection H as <-.
        exists (mul_b p), p, (mul_a p). auto 10.
    - intros (o & p & rest & Ed & Eo & -> & [[-> ->]|[-> ->]] & Ec & En); rewrite Ed; unfold split_product; rewrite Ec, En, Eo, Z.eqb_refl; reflexivity. }
  unfold rewrite_floordiv. split.
  - intros H. destruct (cst a) as [x|] eqn:Ea, (cst b) as [y|] eqn:Eb; try discriminate; apply L in H as (o & p & rest & H);
      [exists x, o, b, p, rest|exists y, o, a, p, rest]; auto 10.
  - intros (c & o & w & p & rest & [(-> & -> & ->)|(-> & -> & ->)] & H); apply L; eauto.
Qed.
(** It also applies when the product is the divisor: 2 // (3 * 2) becomes 3. *)
Theorem C97_product_quotient_refuted : exists env defs a b v, product_means env defs /\ sees env a /\ sees env b /\
  rewrite_floordiv defs a b = Some v /\ env (val b) <> 0 /\ env (val a) / env (val b) = 0 /\ env v = 3.
Proof.
  set (two := {| val := 0; cst := Some 2; is_size := false |}). set (x := {| val := 1; cst := None; is_size := false |} : operand Z).
  exists (fun v => match v with O => 2 | 1%nat => 3 | _ => 6 end),
    (fun v => match v with 2%nat => Some {| mul_a := x; mul_b := two; one_use := true |} | _ => None end), two,
    {| val := 2; cst := None; is_size := false |}, 1%nat.
  split; [|split; [|split; [|split; [|split; [|split]]]]]; try reflexivity; try discriminate.
  - intros v p H. destruct v as [|[|[|v]]]; try discriminate. injection H as <-. cbn. split; [reflexivity|]. split; intros c; cbn; congruence.
  - intros c [= <-]. reflexivity.
Qed.
(** Two constant factors are multiplied together. *)
Theorem C97_product_of_products : forall env defs a b v r, product_means env defs -> sees env a -> sees env b ->
  rewrite_mul defs a b = Some (v, r) ->
  exists c1 c2, env (val a) * env (val b) = env v * (c1 * c2) /\ (in_range (c1 * c2) -> r = Attr (c1 * c2)) /\ (~ in_range (c1 * c2) -> r = Undefined) /\
    (cst a = Some c2 /\ cst b = None \/ cst b = Some c2 /\ cst a = None).
Proof.
  intros env defs a b v r M Ha Hb H. unfold rewrite_mul in H.
  assert (K : forall z, (in_range z -> checked z = Attr z) /\ (~ in_range z -> checked z = Undefined)).
  { intros z. split; intros R; apply checked_spec; auto. }
  destruct (cst a) as [x|] eqn:Ea, (cst b) as [y|] eqn:Eb; try discriminate.
  - destruct (defs (val b)) as [p|] eqn:Ep; [|discriminate]. destruct (split_product p) as [[c o]|] eqn:Es; [|discriminate].
    destruct (one_use p); [|discriminate]. injection H as <- <-. exists c, x. destruct (M _ _ Ep) as (Em & Pa & Pb).
    rewrite Em, (split_means env p c o Pa Pb Es), (Ha _ Ea). split; [ring|]. destruct (K (c * x)). auto.
  - destruct (defs (val a)) as [p|] eqn:Ep; [|discriminate]. destruct (split_product p) as [[c o]|] eqn:Es; [|discriminate].
    destruct (one_use p); [|discriminate]. injection H as <- <-. exists c, y. destruct (M _ _ Ep) as (Em & Pa & Pb).
    rewrite Em, (split_means env p c o Pa Pb Es), (Hb _ Eb). split; [ring|]. destruct (K (c * y)). auto.
Qed.

(** * Division of integers *)
Theorem C97_div_int : forall a b x y, cst a = Some x -> cst b = Some y -> - 2 ^ 53 <= x <= 2 ^ 53 -> - 2 ^ 53 <= y <= 2 ^ 53 ->
  exists f, fold_div_int a b = Attr f /\
  (x <> 0 -> y <> 0 -> exists m e, nearest_double (Z.abs x) (Z.abs y) m e /\ f = S754_finite (x * y <? 0) (Z.to_pos m) e) /\
  (x = 0 -> y <> 0 -> f = S754_zero (y <? 0)) /\ (x <> 0 -> y = 0 -> f = S754_infinity (x <? 0)) /\ (x = 0 -> y = 0 -> f = S754_nan).
Proof.
  intros a b x y Ea Eb Hx Hy. unfold fold_div_int. rewrite Ea, Eb. eexists. split; [reflexivity|]. unfold divide_ints.
  rewrite !C97_small_integers_are_doubles by lia. split; [|split; [|split]].
  - intros Nx Ny. rewrite (proj2 (Z.eqb_neq x 0) Nx), (proj2 (Z.eqb_neq y 0) Ny). destruct (round_ratio (Z.abs x) (Z.abs y)) as [m e] eqn:E.
    exists m, e. split; [apply C97_rounding; auto; lia|]. unfold of_pair. cbn [fst snd]. f_equal.
    destruct (Z.ltb_spec x 0), (Z.ltb_spec y 0), (Z.ltb_spec (x * y) 0); cbn; auto; exfalso; nia.
  - intros -> Ny. rewrite (proj2 (Z.eqb_neq y 0) Ny). reflexivity.
  - intros Nx ->. rewrite (proj2 (Z.eqb_neq x 0) Nx). reflexivity.
  - intros -> ->. reflexivity.
Qed.

(** * Conversions *)
(** A double that is not zero, infinite or NaN, against an integer: sign, significand, exponent. *)
Definition at_most (z : Z) (s : bool) (m : positive) (e : Z) : Prop :=
  z * 2 ^ Z.max (- e) 0 <= (if s then - Zpos m else Zpos m) * 2 ^ Z.max e 0.
Definition at_least (z : Z) (s : bool) (m : positive) (e : Z) : Prop :=
  (if s then - Zpos m else Zpos m) * 2 ^ Z.max e 0 <= z * 2 ^ Z.max (- e) 0.
Lemma floor_of_spec : forall m e z, z <= floor_of m e <-> z * 2 ^ Z.max (- e) 0 <= m * 2 ^ Z.max e 0.
Proof.
  intros m e z. unfold floor_of. destruct (Z.leb_spec 0 e).
  - rewrite (Z.max_r (- e)), (Z.max_l e) by lia. change (2 ^ 0) with 1. lia.
  - rewrite (Z.max_l (- e)), (Z.max_r e) by lia. change (2 ^ 0) with 1. assert (P : 0 < 2 ^ (- e)) by (apply Z.pow_pos_nonneg; lia).
    set (p := 2 ^ (- e)) in *. clearbody p. rewrite Z.mul_1_r. split; intros H1.
    + assert (D := Z.mul_div_le m p P). nia.
    + apply Z.div_le_lower_bound; lia.
Qed.
(** C97. int(f) truncates: it is the largest integer not above a positive f and the smallest one
    not below a negative f; math.ceil(f) is the smallest one not below f. *)
Theorem C97_truncation : forall a s m e r, cst a = Some (S754_finite s m e) -> fold_int_float a = Attr r ->
  in_range r /\ forall z, if s then (r <= z <-> at_least z s m e) else (z <= r <-> at_most z s m e).
Proof.
  intros a s m e r E. unfold fold_int_float. rewrite E. cbn [int_of_float]. intros H. apply checked_spec in H as [[R [= H]]|[_ H]]; [|discriminate].
  subst r. split; auto. intros z. unfold signed, at_least, at_most. destruct s.
  - rewrite Z.mul_opp_l. transitivity (- z <= floor_of (Zpos m) e); [lia|]. rewrite floor_of_spec. lia.
  - apply floor_of_spec.
Qed.
Theorem C97_ceiling : forall a s m e r, cst a = Some (SFloat (S754_finite s m e)) -> fold_ceil_scalar a = Attr r ->
  in_range r /\ forall z, r <= z <-> at_least z s m e.
Proof.
  intros a s m e r E. unfold fold_ceil_scalar. rewrite E. cbn [int_of_ceil]. intros H. apply checked_spec in H as [[R [= H]]|[_ H]]; [|discriminate].
  subst r. split; auto. intros z. unfold at_least. transitivity (- z <= floor_of (signed (negb s) (Zpos m)) e); [lia|]. rewrite floor_of_spec.
  unfold signed. destruct s; cbn [negb]; lia.
Qed.
(** Zeros, infinities and NaN; and what is folded. *)
Theorem C97_special_values : forall (a : operand spec_float) (b : operand scalar),
  (forall s, cst a = Some (S754_zero s) -> fold_int_float a = Attr 0) /\
  (forall f, cst a = Some f -> (fold_int_float a = Undefined <-> f = S754_nan \/ (exists s, f = S754_infinity s) \/
     exists s m e, f = S754_finite s m e /\ ~ in_range (if s then - floor_of (Zpos m) e else floor_of (Zpos m) e))) /\
  (fold_int_float a = NoFold <-> cst a = None) /\
  (forall s, cst b = Some (SFloat (S754_zero s)) -> fold_ceil_scalar b = Attr 0) /\
  (cst b = Some (SFloat S754_nan) -> fold_ceil_scalar b = Undefined) /\
  (forall s, cst b = Some (SFloat (S754_infinity s)) -> fold_ceil_scalar b = Undefined) /\
  (fold_ceil_scalar b = NoFold <-> forall f, cst b <> Some (SFloat f)).
Proof.
  assert (U : forall z, checked z = Undefined <-> ~ in_range z).
  { intros z. rewrite checked_spec. split; [intros [[_ H]|[H _]]; [discriminate|auto]|auto]. }
  assert (V : forall z, checked z <> NoFold) by (intros z; unfold checked; destruct (fits z); discriminate).
  intros a b. unfold fold_int_float, fold_ceil_scalar. split; [|split; [|split; [|split; [|split; [|split]]]]].
  - intros s ->. reflexivity.
  - intros f ->. destruct f as [s|s| |s m e]; cbn [int_of_float].
    + split; [discriminate|]. intros [H|[[s' H]|(s' & m & e & H & _)]]; discriminate.
    + split; eauto.
    + split; auto.
    + rewrite U. unfold signed. split; [intros H; right; right; exists s, m, e; split; auto; destruct s; auto|].
      intros [H|[[s' H]|(s' & m' & e' & [= <- <- <-] & R)]]; try discriminate. destruct s; auto.
  - destruct (cst a) as [[]|]; cbn; split; intros; try discriminate; auto. exfalso. eapply V; eauto.
  - intros s ->. reflexivity.
  - intros ->. reflexivity.
  - intros s ->. reflexivity.
  - destruct (cst b) as [[z|f]|]; split; intros; auto; try discriminate.
    + exfalso. destruct f; cbn in H; try discriminate. eapply V; eauto.
    + exfalso. eapply H; eauto.
Qed.
Theorem C97_scalar_conversions : forall (a : operand scalar) b,
  (forall z, cst a = Some (SInt z) -> fold_float_scalar a b = Attr (to_double z)) /\
  ((forall z, cst a <> Some (SInt z)) -> fold_float_scalar a b = if b then Value (val a) else NoFold) /\
  (forall f, cst a = Some (SFloat f) -> fold_int_scalar a b = int_of_float f) /\
  ((forall f, cst a <> Some (SFloat f)) -> fold_int_scalar a b = if b then Value (val a) else NoFold).
Proof.
  intros a b. unfold fold_float_scalar, fold_int_scalar. split; [|split; [|split]]; intros; destruct (cst a) as [[]|] eqn:E; try congruence; auto;
    exfalso; eapply H; eauto.
Qed.
Theorem C97_bool_float : forall (a : operand spec_float) f, cst a = Some f -> exists r, fold_bool_float a = Attr r /\ (r = false <-> exists s, f = S754_zero s).
Proof.
  intros a f E. unfold fold_bool_float. rewrite E. eexists. split; [reflexivity|]. destruct f; cbn; split; try discriminate; eauto; intros [? ?]; discriminate.
Qed.
Theorem C97_negation : forall (a : operand spec_float) f, cst a = Some f ->
  exists r, fold_neg_float a = Attr r /\ (forall s m e, f = S754_finite s m e -> r = S754_finite (negb s) m e) /\ (f = S754_nan -> r = S754_nan) /\
  (forall s, f = S754_zero s -> r = S754_zero (negb s)) /\ (forall s, f = S754_infinity s -> r = S754_infinity (negb s)).
Proof.
  intros a f E. unfold fold_neg_float. rewrite E. eexists. split; [reflexivity|].
  split; [|split; [|split]]; intros; subst; reflexivity.
Qed.

(** * Comparisons *)
(** Comparisons of doubles are right, except that a value is taken to be equal to itself. *)
Definition float_relation (cmp : spec_float -> spec_float -> bool) (f : operand spec_float -> operand spec_float -> folded bool) : Prop :=
  forall env a b r, sees env a -> sees env b -> f a b = Attr r ->
  (val a = val b -> env (val a) <> S754_nan) -> r = cmp (env (val a)) (env (val b)).
Theorem C97_comparisons_partial :
  float_relation SFltb fold_lt_float /\ float_relation (fun a b => SFltb b a) fold_gt_float /\
  float_relation (fun a b => SFleb b a) fold_ge_float /\ float_relation SFeqb fold_eq_float.
Proof.
  assert (Rf : forall x, x <> S754_nan -> SFcompare x x = Some Eq).
  { intros [s|s| |s m e] N; cbn; try congruence; destruct s; auto; rewrite Z.compare_refl; change (Pos.compare_cont Eq m m) with (Pos.compare m m); rewrite Pos.compare_refl; reflexivity. }
  assert (G : forall cmp : spec_float -> spec_float -> bool, (forall x, x <> S754_nan -> cmp x x = cmp (S754_zero false) (S754_zero false)) -> float_relation cmp (compare_float cmp)).
  { intros cmp Hc env a b r Ha Hb H N. unfold compare_float in H. destruct (Nat.eqb_spec (val a) (val b)) as [e|n].
    - injection H as <-. rewrite <- e. symmetry. auto.
    - destruct (cst a) as [x|] eqn:Ea, (cst b) as [y|] eqn:Eb; try discriminate. injection H as <-. now rewrite (Ha _ Ea), (Hb _ Eb). }
  split; [|split; [|split]]; apply G; intros x N; unfold SFltb, SFleb, SFeqb; rewrite (Rf x N); reflexivity.
Qed.
(** Less-than and greater-than need no exception. *)
Theorem C97_strict_comparisons : forall env a b r, sees env a -> sees env b ->
  (fold_lt_float a b = Attr r -> r = SFltb (env (val a)) (env (val b))) /\ (fold_gt_float a b = Attr r -> r = SFltb (env (val b)) (env (val a))).
Proof.
  intros env a b r Ha Hb.
  assert (Q : forall u v : nat, {u = v} + {u <> v}) by decide equality.
  assert (D : val a = val b /\ env (val a) = S754_nan \/ (val a = val b -> env (val a) <> S754_nan)).
  { destruct (Q (val a) (val b)) as [e|]; [|right; congruence]. destruct (env (val a)) eqn:En; auto; right; congruence. }
  destruct C97_comparisons_partial as (L & G & _). destruct D as [[e En]|D].
  - unfold fold_lt_float, fold_gt_float, compare_float. rewrite (proj2 (Nat.eqb_eq _ _) e), <- e, En. split; intros [= <-]; reflexivity.
  - split; intros H; [exact (L env a b r Ha Hb H D)|exact (G env a b r Ha Hb H D)].
Qed.
(** x == x and x >= x are folded to true although they are false when x is NaN. *)
Theorem C97_comparisons_refuted : exists env (a : operand spec_float), sees env a /\
  fold_eq_float a a = Attr true /\ SFeqb (env (val a)) (env (val a)) = false /\ fold_ge_float a a = Attr true /\ SFleb (env (val a)) (env (val a)) = false.
Proof.
  exists (fun _ => S754_nan), {| val := 0; cst := None; is_size := false |}. split; [intros c H; discriminate|]. repeat split; reflexivity.
Qed.
Theorem C97_comparisons_folded : forall cmp a b, (compare_float cmp a b <> NoFold <-> val a = val b \/ cst a <> None /\ cst b <> None) /\
  compare_float cmp a b <> Undefined.
Proof.
  intros cmp a b. unfold compare_float. destruct (Nat.eqb_spec (val a) (val b)); [split; [split; [auto|discriminate]|discriminate]|].
  destruct (cst a), (cst b); (split; [|discriminate]); split; intros H; try discriminate; try congruence; try (right; split; discriminate);
    destruct H as [?|[? ?]]; congruence.
Qed.

(** * Operations on doubles *)
(** A quotient of constants is the quotient, unless the dividend is zero or the divisor is one. *)
Theorem C97_div_float : forall divide a b x, cst a = Some x ->
  (forall y, cst b = Some y -> (forall s, x <> S754_zero s) -> SFeqb y one = false -> fold_div_float divide a b = Attr (divide x y)) /\
  (forall y, cst b = Some y -> (forall s, x <> S754_zero s) -> SFeqb y one = true -> fold_div_float divide a b = Attr x) /\
  (cst b = None -> (forall s, x <> S754_zero s) -> fold_div_float divide a b = NoFold) /\
  (forall s, x = S754_zero s -> fold_div_float divide a b = Attr (S754_zero false)).
Proof.
  intros divide a b x E. unfold fold_div_float. rewrite E.
  assert (Z : (forall s, x <> S754_zero s) -> is_zero x = false) by (intros N; destruct x as [s| | |]; auto; exfalso; eapply N; eauto).
  split; [|split; [|split]].
  - intros y -> N F. rewrite (Z N), F. reflexivity.
  - intros y -> N F. rewrite (Z N), F. reflexivity.
  - intros -> N. rewrite (Z N). reflexivity.
  - intros s ->. reflexivity.
Qed.
(** Zero divided by anything is folded to zero, even when the divisor is zero, NaN or unknown. *)
Theorem C97_div_float_refuted : exists env a b c, sees env a /\ sees env b /\ sees env c /\
  SFdiv 53 1024 (env (val a)) (env (val b)) = S754_nan /\ fold_div_float (SFdiv 53 1024) a b = Attr (S754_zero false) /\
  SFdiv 53 1024 (env (val a)) (env (val c)) = S754_zero true /\ fold_div_float (SFdiv 53 1024) a c = Attr (S754_zero false).
Proof.
  exists (fun v => match v with O | 1%nat => S754_zero false | _ => S754_finite true (2 ^ 52) (-52) end),
    {| val := 0; cst := Some (S754_zero false); is_size := false |}, {| val := 1; cst := None; is_size := false |},
    {| val := 2; cst := None; is_size := false |}.
  split; [intros c [= <-]; reflexivity|]. split; [discriminate|]. split; [discriminate|]. repeat split; reflexivity.
Qed.
Theorem C97_binary_operations : forall op int_op (a b : operand scalar),
  (forall x y, cst a = Some x -> cst b = Some y -> binary_float op a b = Attr (op (number x) (number y))) /\
  (cst a = None \/ cst b = None -> binary_float op a b = NoFold /\ binary_number op int_op a b = NoFold) /\
  (forall x y, cst a = Some (SInt x) -> cst b = Some (SInt y) -> in_range (int_op x y) -> binary_number op int_op a b = Attr (SInt (int_op x y))) /\
  (forall x y, cst a = Some (SInt x) -> cst b = Some (SInt y) -> ~ in_range (int_op x y) -> binary_number op int_op a b = Undefined) /\
  (forall x y, cst a = Some x -> cst b = Some y -> (forall u v, x = SInt u -> y = SInt v -> False) ->
     binary_number op int_op a b = Attr (SFloat (op (number x) (number y)))).
Proof.
  intros op int_op a b. unfold binary_float, binary_number. split; [|split; [|split; [|split]]].
  - intros x y -> ->. reflexivity.
  - intros [->| ->]; split; auto; destruct (cst a) as [[]|]; auto.
  - intros x y -> -> R. rewrite (proj2 (checked_spec _ (Attr _)) (or_introl (conj R eq_refl))). reflexivity.
  - intros x y -> -> R. rewrite (proj2 (checked_spec _ Undefined) (or_intror (conj R eq_refl))). reflexivity.
  - intros x y -> -> N. destruct x, y; auto. exfalso. eapply N; eauto.
Qed.

Example C97_nonvacuous :
  fold_floordiv {| val := 0; cst := Some (-7); is_size := false |} {| val := 1; cst := Some 2; is_size := false |} = Attr (-4) /\
  divide_ints (-10) 7 = SFdiv 53 1024 (to_double (-10)) (to_double 7) /\ divide_ints 1 3 = SFdiv 53 1024 (to_double 1) (to_double 3) /\
  to_double 1 = one /\ double_of_int (2 ^ 53 + 1) = 2 ^ 53 /\ double_of_int (2 ^ 53 + 3) = 2 ^ 53 + 4 /\
  fold_int_float {| val := 0; cst := Some (divide_ints (-10) 4); is_size := false |} = Attr (-2) /\
  fold_ceil_scalar {| val := 0; cst := Some (SFloat (divide_ints 10 4)); is_size := false |} = Attr 3.
Proof. repeat split; vm_compute; reflexivity. Qed.

Print Assumptions C97_rounding.
Print Assumptions C97_small_integers_are_doubles.
Print Assumptions C97_integer_to_double.
Print Assumptions C97_floordiv_partial.
Print Assumptions C97_floordiv_refuted.
Print Assumptions C97_product_quotient.
Print Assumptions C97_product_quotient_applies.
Print Assumptions C97_product_quotient_refuted.
Print Assumptions C97_product_of_products.
Print Assumptions C97_div_int.
Print Assumptions C97_truncation.
Print Assumptions C97_ceiling.
Print Assumptions C97_special_values.
Print Assumptions C97_scalar_conversions.
Print Assumptions C97_bool_float.
Print Assumptions C97_negation.
Print Assumptions C97_comparisons_partial.
Print Assumptions C97_strict_comparisons.
Print Assumptions C97_comparisons_refuted.
Print Assumptions C97_comparisons_folded.
Print Assumptions C97_div_float.
Print Assumptions C97_div_float_refuted.
Print Assumptions C97_binary_operations.
