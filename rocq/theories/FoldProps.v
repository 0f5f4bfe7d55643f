(** C96: folding scalar operations. *)
From Coq Require Import ZArith Lia String List Bool.
From Verif Require Import Prelude FoldModel.
Import ListNotations.
Open Scope Z_scope.

(** What an execution knows: every value has a value of its own; constants are what they are
    and sizes are not negative. *)
Definition sees {A} (env : nat -> A) (o : operand A) : Prop := forall c, cst o = Some c -> env (val o) = c.
Definition sizes_ok (env : nat -> Z) (o : operand Z) : Prop := is_size o = true -> 0 <= env (val o).
(** A folder's result is the value the operation computes, in every execution. *)
Definition means {A} (env : nat -> A) (r : folded A) (x : A) : Prop :=
  match r with NoFold => True | Attr a => a = x | Value v => env v = x | Undefined => False end.
Definition in_range (z : Z) : Prop := - 2 ^ 63 <= z < 2 ^ 63.

Lemma fits_range : forall z, fits z = true <-> in_range z.
Proof. intros z. unfold fits, in_range, int64_min, int64_max. lia. Qed.
Lemma checked_spec : forall z r, checked z = r <-> (in_range z /\ r = Attr z) \/ (~ in_range z /\ r = Undefined).
Proof.
  intros z r. unfold checked. rewrite <- fits_range. destruct (fits z); split; intros H; subst; auto.
  - destruct H as [[_ H]|[H _]]; [auto|destruct H; auto].
  - destruct H as [[H _]|[_ H]]; [discriminate|auto].
Qed.

(** C96. Addition, subtraction, multiplication and negation: whatever is folded is the sum,
    difference, product or opposite, as long as it is a 64-bit number. *)
Theorem C96_add : forall env a b, sees env a -> sees env b -> in_range (env (val a) + env (val b)) ->
  means env (fold_add a b) (env (val a) + env (val b)).
Proof.
  intros env a b Ha Hb R. unfold fold_add.
  assert (G : means env (binary_int a b (fun x y => checked (x + y))) (env (val a) + env (val b))).
  { unfold binary_int. destruct (cst a) as [x|] eqn:Ea, (cst b) as [y|] eqn:Eb; try exact I.
    apply Ha in Ea. apply Hb in Eb. unfold checked. rewrite <- Ea, <- Eb, (proj2 (fits_range _) R). reflexivity. }
  assert (G0 : means env (match cst a with Some 0 => Value (val b) | _ => binary_int a b (fun x y => checked (x + y)) end) (env (val a) + env (val b))).
  { destruct (cst a) as [[| |]|] eqn:Ea; auto. apply Ha in Ea. cbn. lia. }
  destruct (cst b) as [[| |]|] eqn:Eb; auto. apply Hb in Eb. cbn. lia.
Qed.
Theorem C96_sub : forall env a b, sees env a -> sees env b -> in_range (env (val a) - env (val b)) ->
  means env (fold_sub a b) (env (val a) - env (val b)).
Proof.
  intros env a b Ha Hb R. unfold fold_sub. destruct (Nat.eqb_spec (val a) (val b)) as [->|N]; [cbn; lia|].
  unfold binary_int. destruct (cst a) as [x|] eqn:Ea, (cst b) as [y|] eqn:Eb; try exact I.
  apply Ha in Ea. apply Hb in Eb. unfold checked. rewrite <- Ea, <- Eb, (proj2 (fits_range _) R). reflexivity.
Qed.
Lemma is_const_spec : forall a z, is_const a z = true <-> cst a = Some z.
Proof. intros a z. unfold is_const. destruct (cst a) as [x|]; [|split; discriminate]. rewrite Z.eqb_eq. split; congruence. Qed.
Theorem C96_mul : forall env a b, sees env a -> sees env b -> in_range (env (val a) * env (val b)) ->
  means env (fold_mul a b) (env (val a) * env (val b)).
Proof.
  intros env a b Ha Hb R. unfold fold_mul.
  destruct (is_const a 1) eqn:E1; [apply is_const_spec, Ha in E1; cbn; lia|].
  destruct (is_const b 1) eqn:E2; [apply is_const_spec, Hb in E2; cbn; lia|].
  destruct (is_const a 0 || is_const b 0) eqn:E3.
  { apply orb_true_iff in E3 as [E|E]; apply is_const_spec in E; [apply Ha in E|apply Hb in E]; rewrite E; cbn; lia. }
  destruct (cst a) as [x|] eqn:Ea, (cst b) as [y|] eqn:Eb; try exact I.
  apply Ha in Ea. apply Hb in Eb. unfold checked. rewrite <- Ea, <- Eb, (proj2 (fits_range _) R). reflexivity.
Qed.
Theorem C96_neg : forall env a, sees env a -> in_range (- env (val a)) -> means env (fold_neg a) (- env (val a)).
Proof.
  intros env a Ha R. unfold fold_neg. destruct (cst a) as [x|] eqn:Ea; [|exact I].
  apply Ha in Ea. unfold checked. rewrite <- Ea, (proj2 (fits_range _) R). reflexivity.
Qed.
(** Two constants are always folded; and which other operands are. *)
Theorem C96_constants_are_folded : forall a b x y, cst a = Some x -> cst b = Some y ->
  fold_add a b <> NoFold /\ fold_sub a b <> NoFold /\ fold_mul a b <> NoFold /\ fold_neg a <> NoFold /\
  fold_max a b <> NoFold /\ fold_min a b <> NoFold /\ fold_remainder a b <> NoFold.
Proof.
  intros a b x y Ea Eb. assert (C : forall z, checked z <> NoFold) by (intros z; unfold checked; destruct (fits z); discriminate).
  unfold fold_add, fold_sub, fold_mul, fold_neg, fold_max, fold_min, fold_remainder, binary_int. rewrite Ea, Eb.
  repeat split; repeat match goal with |- context [if ?c then _ else _] => destruct c end; try discriminate; auto;
    destruct y, x; try discriminate; apply C.
Qed.
Theorem C96_folded_without_two_constants : forall a b, cst a = None \/ cst b = None ->
  (fold_add a b <> NoFold <-> cst a = Some 0 \/ cst b = Some 0) /\
  (fold_sub a b <> NoFold <-> val a = val b) /\
  (fold_mul a b <> NoFold <-> cst a = Some 0 \/ cst b = Some 0 \/ cst a = Some 1 \/ cst b = Some 1) /\
  (fold_max a b <> NoFold <-> val a = val b) /\ (fold_min a b <> NoFold <-> val a = val b).
Proof.
  intros a b N. unfold fold_add, fold_sub, fold_mul, fold_max, fold_min, binary_int.
  assert (P : match cst a, cst b with Some x, Some y => False | _, _ => True end) by (destruct N as [->| ->]; auto; destruct (cst a); auto).
  assert (M : forall T (f : Z -> Z -> folded T), match cst a, cst b with Some x, Some y => f x y | _, _ => NoFold end = NoFold)
    by (intros; destruct (cst a), (cst b); auto; destruct P).
  rewrite !M. split; [|split; [|split; [|split]]].
  - destruct (cst a) as [[| |]|], (cst b) as [[| |]|]; split; intros H; try tauto; try discriminate; try (destruct H; discriminate); auto.
  - destruct (Nat.eqb_spec (val a) (val b)); split; intros; congruence.
  - destruct (is_const a 1) eqn:A1; [apply is_const_spec in A1; split; intros; [auto|discriminate]|].
    destruct (is_const b 1) eqn:B1; [apply is_const_spec in B1; split; intros; [auto|discriminate]|].
    destruct (is_const a 0) eqn:A0; [apply is_const_spec in A0; cbn; split; intros; [auto|discriminate]|].
    destruct (is_const b 0) eqn:B0; [apply is_const_spec in B0; cbn; split; intros; [auto|discriminate]|]. cbn.
    rewrite <- !is_const_spec, A1, B1, A0, B0. split; intros H; [congruence|]. intuition discriminate.
  - destruct (Nat.eqb_spec (val a) (val b)); split; intros; congruence.
  - destruct (Nat.eqb_spec (val a) (val b)); split; intros; congruence.
Qed.
(** Nothing else is undefined than a result of more than 64 bits. *)
Theorem C96_undefined : forall a b,
  (fold_add a b = Undefined <-> exists x y, cst a = Some x /\ cst b = Some y /\ x <> 0 /\ y <> 0 /\ ~ in_range (x + y)) /\
  (fold_sub a b = Undefined <-> val a <> val b /\ exists x y, cst a = Some x /\ cst b = Some y /\ ~ in_range (x - y)) /\
  (fold_neg a = Undefined <-> exists x, cst a = Some x /\ ~ in_range (- x)) /\
  (fold_remainder a b = Undefined <-> exists x y, cst a = Some x /\ cst b = Some y /\ (y = 0 \/ x = - 2 ^ 63 /\ y = -1)).
Proof.
  assert (U : forall z, checked z = Undefined <-> ~ in_range z).
  { intros z. rewrite checked_spec. split; [intros [[_ H]|[H _]]; [discriminate|auto]|auto]. }
  intros a b. unfold fold_add, fold_sub, fold_neg, fold_remainder, binary_int. split; [|split; [|split]].
  - split.
    + intros H. destruct (cst a) as [x|], (cst b) as [y|]; try (destruct y); try (destruct x); try discriminate;
        (eexists; eexists; split; [reflexivity|split; [reflexivity|]]; apply U in H; repeat split; [discriminate|discriminate|auto]).
    + intros (x & y & -> & -> & Hx & Hy & H). apply U in H. destruct x, y; auto; congruence.
  - destruct (Nat.eqb_spec (val a) (val b)) as [e|n]; [split; [discriminate|tauto]|]. split.
    + intros H. split; auto. destruct (cst a) as [x|], (cst b) as [y|]; try discriminate. apply U in H. eauto.
    + intros (_ & x & y & -> & -> & H). now apply U.
  - split.
    + intros H. destruct (cst a) as [x|]; [|discriminate]. apply U in H. eauto.
    + intros (x & -> & H). now apply U.
  - split.
    + intros H. destruct (cst a) as [x|], (cst b) as [y|]; try discriminate. exists x, y. split; auto. split; auto.
      destruct (Z.eqb_spec y 0); auto. cbn in H. unfold int64_min in H. destruct (Z.eqb_spec x (- 2 ^ 63)), (Z.eqb_spec y (-1)); try discriminate. auto.
    + intros (x & y & -> & -> & [->|[-> ->]]); auto.
Qed.
(** The larger and the smaller of two numbers. *)
Theorem C96_max_min : forall env a b, sees env a -> sees env b ->
  means env (fold_max a b) (Z.max (env (val a)) (env (val b))) /\ means env (fold_min a b) (Z.min (env (val a)) (env (val b))).
Proof.
  intros env a b Ha Hb. unfold fold_max, fold_min. destruct (Nat.eqb_spec (val a) (val b)) as [->|n].
  - split; cbn; lia.
  - destruct (cst a) as [x|] eqn:Ea, (cst b) as [y|] eqn:Eb; try (split; exact I). apply Ha in Ea. apply Hb in Eb.
    rewrite Ea, Eb. split; cbn; [destruct (Z.ltb_spec x y)|destruct (Z.ltb_spec y x)]; lia.
Qed.

(** The remainder is folded with the C++ operator: it is Python's exactly when the division is
    exact or the two numbers have the same sign. *)
Theorem C96_remainder_partial : forall a b x y, cst a = Some x -> cst b = Some y -> in_range x -> y <> 0 -> ~ (x = - 2 ^ 63 /\ y = -1) ->
  exists r, fold_remainder a b = Attr r /\ (r = x mod y <-> (y | x) \/ (0 < x /\ 0 < y) \/ (x < 0 /\ y < 0)).
Proof.
  intros a b x y Ea Eb R Ny Nu. unfold fold_remainder, binary_int. rewrite Ea, Eb.
  replace ((y =? 0) || ((x =? int64_min) && (y =? -1))) with false.
  2:{ symmetry. apply not_true_is_false. unfold int64_min. intros Q. apply Nu. lia. }
  exists (Z.rem x y). split; auto. rewrite <- Z.mod_divide by auto. rewrite Z.rem_mod by auto.
  assert (M : forall u v, 0 < v -> 0 <= u mod v < v) by (intros; now apply Z.mod_pos_bound).
  destruct (Z.eq_dec (x mod y) 0) as [Z0|Z0].
  - rewrite Z0. split; auto. intros _. assert (A : Z.abs x mod Z.abs y = 0).
    { apply Z.mod_divide; [lia|]. apply Z.divide_abs_l, Z.divide_abs_r. apply Z.mod_divide; auto. }
    rewrite A. lia.
  - assert (Ax : x <> 0) by (intros ->; apply Z0; now apply Z.mod_0_l).
    destruct (Z.lt_trichotomy 0 x) as [Px|[Px|Px]], (Z.lt_trichotomy 0 y) as [Py|[Py|Py]]; try (exfalso; clear - Px Py Ax Ny; lia).
    + rewrite !Z.abs_eq, Z.sgn_pos by lia. split; [intros; auto|intros _; ring].
    + rewrite Z.abs_eq, (Z.abs_neq y), Z.sgn_pos by lia. split; [|intros [D|[D|D]]; [congruence|exfalso; clear - D Px Py; lia|exfalso; clear - D Px Py; lia]]. intros H.
      assert (A1 : 0 <= x mod (- y) < - y) by (apply M; lia). assert (A2 : y < x mod y <= 0) by (apply Z.mod_neg_bound; lia).
      clear M. generalize dependent (x mod y). generalize dependent (x mod - y). clear. intros. nia.
    + rewrite Z.abs_neq, (Z.abs_eq y), Z.sgn_neg by lia. split; [|intros [D|[D|D]]; [congruence|exfalso; clear - D Px Py; lia|exfalso; clear - D Px Py; lia]]. intros H.
      assert (A1 : 0 <= (- x) mod y < y) by (apply M; lia). assert (A2 : 0 <= x mod y < y) by (apply M; lia).
      clear M. generalize dependent (x mod y). generalize dependent (- x mod y). clear. intros. nia.
    + rewrite !Z.abs_neq, Z.sgn_neg by lia. rewrite Z.mod_opp_opp by auto. split; [intros; auto|intros _; ring].
Qed.
(** -7 % 3 is 2 in Python, and folded to -1. *)
Theorem C96_remainder_refuted : exists a b env, sees env a /\ sees env b /\ in_range (env (val a)) /\
  fold_remainder a b = Attr (-1) /\ env (val a) mod env (val b) = 2.
Proof.
  exists {| val := 0; cst := Some (-7); is_size := false |}, {| val := 1; cst := Some 3; is_size := false |}, (fun v => match v with O => -7 | _ => 3 end).
  repeat split; try (intros c [= <-]; reflexivity); try reflexivity; cbn; lia.
Qed.

(** * Ranges *)
(** The number of elements of range(lo, hi, step). *)
Definition range_length (lo hi step n : Z) : Prop := 0 <= n /\ forall i, 0 <= i -> (lo + step * i < hi <-> i < n).
Lemma ceil_spec : forall n d, 0 < d -> rounding_sdiv_up n d = - (- n / d).
Proof.
  intros n d P. unfold rounding_sdiv_up. assert (Q := Z.quot_rem' n d).
  destruct (Z.eqb_spec (Z.rem n d) 0) as [e|e].
  - assert (En : n = d * Z.quot n d) by lia. rewrite En at 2. replace (- (d * Z.quot n d)) with (- Z.quot n d * d) by ring.
    rewrite Z.div_mul by lia. lia.
  - replace (d <? 0) with false by (symmetry; apply Z.ltb_ge; lia). destruct (Z.ltb_spec n 0) as [L|L]; cbn.
    + assert (B : - d < Z.rem n d <= 0) by (apply Z.rem_bound_pos_neg; lia). assert (H : - n / d = - Z.quot n d); [|rewrite H; ring].
      symmetry. apply (Z.div_unique_pos (- n) d _ (- Z.rem n d)); lia.
    + assert (B : 0 <= Z.rem n d < d) by (apply Z.rem_bound_pos_pos; lia). assert (H : - n / d = - Z.quot n d - 1); [|rewrite H; ring].
      symmetry. apply (Z.div_unique_pos (- n) d _ (d - Z.rem n d)); lia.
Qed.
Lemma wrap_id : forall z, in_range z -> wrap z = z.
Proof. intros z R. unfold wrap, in_range in *. rewrite Z.mod_small; lia. Qed.
(** The length of a range is folded exactly when it does not end more than a step before it
    begins; otherwise a negative length comes out. *)
Theorem C96_range_length_partial : forall lo hi step l h s, cst lo = Some l -> cst hi = Some h -> cst step = Some s ->
  0 < s -> in_range s -> in_range (h - l) ->
  exists n, fold_range_length lo hi step = Attr n /\ (range_length l h s n <-> l < h + s).
Proof.
  intros lo hi step l h s El Eh Es P Rs R. unfold fold_range_length. rewrite El, Eh, Es.
  destruct (Z.ltb_spec s 0) as [?|_]; [lia|]. destruct (Z.eqb_spec s 0) as [?|_]; [lia|]. rewrite (wrap_id (h - l)), ceil_spec by auto.
  set (n := - (- (h - l) / s)).
  assert (B : s * (n - 1) < h - l <= s * n).
  { unfold n. assert (D := Z.div_mod (- (h - l)) s). assert (M := Z.mod_pos_bound (- (h - l)) s P).
    set (q := - (h - l) / s) in *. set (m := - (h - l) mod s) in *. lia. }
  assert (Rn : in_range n). { unfold in_range in *. nia. }
  exists n. rewrite wrap_id by auto. split; auto. unfold range_length. split.
  - intros [N _]. nia.
  - intros L. split; [nia|]. intros i Hi. nia.
Qed.
(** range(5, 0, 1) is empty; its length is folded to -5. A step of 0 divides by zero. *)
Theorem C96_range_length_refuted : exists lo hi step, (forall i, 0 <= i -> ~ 5 + 1 * i < 0) /\
  cst lo = Some 5 /\ cst hi = Some 0 /\ cst step = Some 1 /\ fold_range_length lo hi step = Attr (-5) /\
  forall lo' hi' step', cst lo' <> None -> cst hi' <> None -> cst step' = Some 0 -> fold_range_length lo' hi' step' = Undefined.
Proof.
  exists {| val := 0; cst := Some 5; is_size := false |}, {| val := 1; cst := Some 0; is_size := false |}, {| val := 2; cst := Some 1; is_size := false |}.
  split; [intros; lia|]. split; [auto|]. split; [auto|]. split; [auto|]. split; [reflexivity|].
  intros a b c A B C. unfold fold_range_length. rewrite C. destruct (cst a), (cst b); auto; congruence.
Qed.
(** The elements of a range, modulo 2^64. *)
Theorem C96_derive_index : forall env i b s, sees env i -> sees env b -> sees env s ->
  in_range (env (val b) + env (val s) * env (val i)) ->
  means env (fold_derive_index i b s) (env (val b) + env (val s) * env (val i)) /\
  (fold_derive_index i b s <> NoFold <-> cst i <> None /\ cst b <> None /\ cst s <> None).
Proof.
  intros env i b s Hi Hb Hs R. unfold fold_derive_index.
  destruct (cst i) as [x|] eqn:Ei, (cst b) as [y|] eqn:Eb, (cst s) as [z|] eqn:Es; cbn [means];
    try (split; [exact I|split; [congruence|intros (A & B & C); congruence]]).
  apply Hi in Ei. apply Hb in Eb. apply Hs in Es. subst x y z.
  split; [|split; [intros _; repeat split; discriminate|discriminate]].
  set (y := env (val b)) in *. set (m := env (val s) * env (val i)) in *.
  assert (W : wrap (y + wrap m) = wrap (y + m)); [|rewrite W; now apply wrap_id].
  unfold wrap. f_equal. rewrite <- (Z.add_mod_idemp_l (y + ((m + 2 ^ 63) mod 2 ^ 64 - 2 ^ 63))) by lia.
  rewrite Z.add_mod_idemp_l by lia. replace (y + ((m + 2 ^ 63) mod 2 ^ 64 - 2 ^ 63) + 2 ^ 63) with (y + (m + 2 ^ 63) mod 2 ^ 64) by lia.
  rewrite Z.add_mod_idemp_r by lia. f_equal. lia.
Qed.

(** * Booleans *)
Theorem C96_booleans : forall env (a b : operand bool), sees env a -> sees env b ->
  means env (fold_not a) (negb (env (val a))) /\ means env (fold_or a b) (env (val a) || env (val b)) /\
  means env (fold_eq_bool a b) (Bool.eqb (env (val a)) (env (val b))) /\ means env (fold_ne_bool a b) (xorb (env (val a)) (env (val b))).
Proof.
  intros env a b Ha Hb. unfold fold_not, fold_or, fold_eq_bool, fold_ne_bool.
  assert (Ca : match cst a with Some c => env (val a) = c | None => True end) by (destruct (cst a) eqn:E; auto).
  assert (Cb : match cst b with Some c => env (val b) = c | None => True end) by (destruct (cst b) eqn:E; auto).
  clear Ha Hb. destruct (Nat.eqb_spec (val a) (val b)) as [e|n].
  - rewrite e in *. clear e. destruct (cst a) as [[]|], (cst b) as [[]|]; cbn [means]; destruct (env (val b)); cbn in *;
      repeat split; congruence.
  - clear n. destruct (cst a) as [[]|], (cst b) as [[]|]; cbn [means]; destruct (env (val a)), (env (val b)); cbn in *;
      repeat split; congruence.
Qed.
Theorem C96_booleans_folded : forall a b : operand bool,
  (fold_not a <> NoFold <-> cst a <> None) /\ (fold_or a b <> NoFold <-> cst a <> None \/ cst b <> None) /\
  (fold_eq_bool a b <> NoFold <-> val a = val b \/ cst a <> None /\ cst b <> None) /\
  (fold_ne_bool a b <> NoFold <-> val a = val b \/ cst a <> None /\ cst b <> None) /\
  fold_or a b <> Undefined /\ fold_eq_bool a b <> Undefined /\ fold_ne_bool a b <> Undefined.
Proof.
  intros a b. unfold fold_not, fold_or, fold_eq_bool, fold_ne_bool.
  destruct (Nat.eqb_spec (val a) (val b)) as [e|n], (cst a) as [[]|], (cst b) as [[]|];
    repeat split; try discriminate; try (intros; auto; fail); try (intros; left; discriminate); try (intros; right; discriminate);
    try (intros H; destruct H; congruence); try congruence; try (intros [?|[? ?]]; congruence); try (right; split; discriminate); intros; right; split; discriminate.
Qed.
Theorem C96_conversions : forall (bools : nat -> bool) (ints : nat -> Z) (a : operand bool) (b : operand Z), sees bools a -> sees ints b ->
  (forall r, fold_int_bool a = Attr r -> r = Z.b2z (bools (val a))) /\ (fold_int_bool a = NoFold <-> cst a = None) /\
  (forall r, fold_bool_int b = Attr r -> (r = true <-> ints (val b) <> 0)) /\ (fold_bool_int b = NoFold <-> cst b = None) /\
  (forall v, fold_int_bool a <> Value v /\ fold_bool_int b <> Value v) /\ fold_int_bool a <> Undefined /\ fold_bool_int b <> Undefined.
Proof.
  intros bools ints a b Ha Hb. unfold fold_int_bool, fold_bool_int.
  destruct (cst a) as [x|] eqn:Ea; destruct (cst b) as [y|] eqn:Eb; repeat split; try discriminate; auto.
  all: try (intros r [= <-]; rewrite (Ha _ Ea); destruct x; reflexivity).
  all: try (rewrite (Hb _ Eb); injection H as <-; destruct (Z.eqb_spec y 0); cbn; intros; congruence).
Qed.

(** * Comparisons *)
(** The six comparisons, whatever the operands are and in whichever order the constant comes. *)
Definition compares (cmp : Z -> Z -> bool) (rel : Z -> Z -> Prop) := forall x y, cmp x y = true <-> rel x y.
Lemma compare_sound : forall cmp env a b, sees env a -> sees env b -> sizes_ok env a -> sizes_ok env b ->
  (forall x y, x = y -> cmp x y = cmp 0 0) -> (forall x y, 0 <= x -> y < 0 -> cmp x y = cmp 0 (-1) /\ cmp y x = cmp (-1) 0) ->
  (forall x, 0 <= x -> cmp x 0 = cmp 0 0 \/ cmp x 0 = cmp 1 0) -> (forall x, 0 <= x -> cmp 0 x = cmp 0 0 \/ cmp 0 x = cmp 0 1) ->
  forall r, compare_int cmp a b = r -> match r with NoFold => True | Attr c => c = cmp (env (val a)) (env (val b)) | _ => False end.
Proof.
  intros cmp env a b Ha Hb Sa Sb Same Neg Zero Zero' r <-. unfold compare_int.
  destruct (Nat.eqb_spec (val a) (val b)) as [e|n]; [rewrite e; symmetry; now apply Same|].
  destruct (cst a) as [x|] eqn:Ea, (cst b) as [y|] eqn:Eb; cbn [cst].
  - now rewrite (Ha _ Ea), (Hb _ Eb).
  - rewrite ?Ea. rewrite (Ha _ Ea). destruct (Z.ltb_spec x 0) as [L|L], (is_size b) eqn:Sz; cbn [andb].
    + symmetry. apply Neg; [now apply Sb|auto].
    + destruct (x =? 0); exact I.
    + destruct (Z.eqb_spec x 0) as [->|]; [|exact I]. cbn [andb].
      destruct (Zero' (env (val b))) as [Z1|Z1]; [now apply Sb| |]; rewrite Z1;
        destruct (cmp 0 0), (cmp 0 1); cbn; auto; destruct (cmp 0 (-1)); cbn; auto.
    + destruct (x =? 0); exact I.
  - rewrite ?Eb. rewrite (Hb _ Eb). destruct (Z.ltb_spec y 0) as [L|L], (is_size a) eqn:Sz; cbn [andb].
    + symmetry. apply Neg; [now apply Sa|auto].
    + destruct (y =? 0); exact I.
    + destruct (Z.eqb_spec y 0) as [->|]; [|exact I]. cbn [andb].
      destruct (Zero (env (val a))) as [Z1|Z1]; [now apply Sa| |]; rewrite Z1;
        destruct (cmp 0 0), (cmp 1 0); cbn; auto; destruct (cmp (-1) 0); cbn; auto.
    + destruct (y =? 0); exact I.
  - rewrite ?Eb. exact I.
Qed.
Theorem C96_comparisons : forall env a b, sees env a -> sees env b -> sizes_ok env a -> sizes_ok env b ->
  let x := env (val a) in let y := env (val b) in
  (forall r, fold_eq a b = Attr r -> (r = true <-> x = y)) /\ (forall r, fold_ne a b = Attr r -> (r = true <-> x <> y)) /\
  (forall r, fold_lt a b = Attr r -> (r = true <-> x < y)) /\ (forall r, fold_le a b = Attr r -> (r = true <-> x <= y)) /\
  (forall r, fold_gt a b = Attr r -> (r = true <-> x > y)) /\ (forall r, fold_ge a b = Attr r -> (r = true <-> x >= y)).
Proof.
  intros env a b Ha Hb Sa Sb x y.
  assert (G : forall cmp, (forall x y, x = y -> cmp x y = cmp 0 0) -> (forall x y, 0 <= x -> y < 0 -> cmp x y = cmp 0 (-1) /\ cmp y x = cmp (-1) 0) ->
    (forall x, 0 <= x -> cmp x 0 = cmp 0 0 \/ cmp x 0 = cmp 1 0) -> (forall x, 0 <= x -> cmp 0 x = cmp 0 0 \/ cmp 0 x = cmp 0 1) ->
    forall r, compare_int cmp a b = Attr r -> r = cmp x y).
  { intros cmp A B C D r H. exact (compare_sound cmp env a b Ha Hb Sa Sb A B C D _ H). }
  clearbody x y. clear Ha Hb Sa Sb.
  split; [|split; [|split; [|split; [|split]]]]; intros r H; apply G in H; try (rewrite ?Z.gtb_ltb, ?Z.geb_leb in H; subst r; lia);
    clear; intros; rewrite ?Z.gtb_ltb, ?Z.geb_leb; lia.
Qed.
(** What is folded: equal operands, constants, and sizes compared with what no size can be. *)
Definition decided (cmp : Z -> Z -> bool) : Prop := cmp 0 0 = true /\ cmp 1 0 = true \/ cmp 0 0 = false /\ cmp (-1) 0 = true /\ cmp 1 0 = false.
Theorem C96_comparisons_folded : forall cmp a b, compare_int cmp a b <> NoFold <->
  val a = val b \/ (cst a <> None /\ cst b <> None) \/
  (exists y, cst a = None /\ cst b = Some y /\ is_size a = true /\ (y < 0 \/ y = 0 /\ decided cmp)) \/
  (exists x, cst b = None /\ cst a = Some x /\ is_size b = true /\ (x < 0 \/ x = 0 /\ decided (fun u v => cmp v u))).
Proof.
  intros cmp a b. unfold compare_int, decided. destruct (Nat.eqb_spec (val a) (val b)) as [e|n]; [split; intros; [auto|discriminate]|].
  destruct (cst a) as [x|] eqn:Ea, (cst b) as [y|] eqn:Eb; cbn [cst].
  - split; intros; [|discriminate]. right. left. split; discriminate.
  - rewrite ?Ea. transitivity (is_size b = true /\ (x < 0 \/ x = 0 /\ (cmp 0 0 = true /\ cmp 0 1 = true \/ cmp 0 0 = false /\ cmp 0 (-1) = true /\ cmp 0 1 = false))).
    + destruct (Z.ltb_spec x 0), (is_size b); cbn [andb]; try (split; intros; [auto|discriminate]).
      * destruct (x =? 0); cbn [andb]; split; [congruence|intros [? ?]; discriminate|congruence|intros [? ?]; discriminate].
      * destruct (Z.eqb_spec x 0); cbn [andb].
        -- destruct (cmp 0 0), (cmp 0 1), (cmp 0 (-1)); cbn; split; intros; try congruence; try discriminate; try tauto; try (exfalso; lia);
             repeat match goal with H : _ /\ _ |- _ => destruct H | H : _ \/ _ |- _ => destruct H end; try discriminate; try lia.
        -- split; [congruence|]. intros [_ [?|[? _]]]; lia.
      * destruct (x =? 0); cbn [andb]; split; [congruence|intros [? ?]; discriminate|congruence|intros [? ?]; discriminate].
    + split.
      * intros [S D]. right. right. right. exists x. auto.
      * intros [?|[[_ N]|[(y & ? & ? & _)|(x' & _ & [= <-] & S & D)]]]; try congruence; auto.
  - rewrite ?Eb. transitivity (is_size a = true /\ (y < 0 \/ y = 0 /\ (cmp 0 0 = true /\ cmp 1 0 = true \/ cmp 0 0 = false /\ cmp (-1) 0 = true /\ cmp 1 0 = false))).
    + destruct (Z.ltb_spec y 0), (is_size a); cbn [andb]; try (split; intros; [auto|discriminate]).
      * destruct (y =? 0); cbn [andb]; split; [congruence|intros [? ?]; discriminate|congruence|intros [? ?]; discriminate].
      * destruct (Z.eqb_spec y 0); cbn [andb].
        -- destruct (cmp 0 0), (cmp 1 0), (cmp (-1) 0); cbn; split; intros; try congruence; try discriminate; try tauto; try (exfalso; lia);
             repeat match goal with H : _ /\ _ |- _ => destruct H | H : _ \/ _ |- _ => destruct H end; try discriminate; try lia.
        -- split; [congruence|]. intros [_ [?|[? _]]]; lia.
      * destruct (y =? 0); cbn [andb]; split; [congruence|intros [? ?]; discriminate|congruence|intros [? ?]; discriminate].
    + split.
      * intros [S D]. right. right. left. exists y. auto.
      * intros [?|[[N _]|[(y' & _ & [= <-] & S & D)|(x' & ? & ? & _)]]]; try congruence; auto.
  - rewrite ?Eb. split; [congruence|]. intros [?|[[? _]|[(? & _ & ? & _)|(? & _ & ? & _)]]]; congruence.
Qed.

(** * None *)
(** A value is None or not; types that are not optional say which. *)
Definition typed (is_none : bool) (r : reference) : Prop :=
  forall t, t = ref_type r \/ derefined r = Some t -> match t with NoneType => is_none = true | OtherType => is_none = false | OptionalType => True end.
(** Two values of which one is None are identical exactly when both are. *)
Theorem C96_is_none : forall a b na nb, typed na a -> typed nb b -> na = true \/ nb = true ->
  (forall r, fold_is a b = Attr r -> (r = true <-> na = true /\ nb = true)) /\
  (forall r, fold_isnot a b = Attr r -> (r = true <-> ~ (na = true /\ nb = true))).
Proof.
  intros a b na nb Ta Tb N. unfold typed in *. unfold fold_is, fold_isnot, is_or_is_not.
  assert (Sa : match static_type a with NoneType => na = true | OtherType => na = false | OptionalType => True end).
  { unfold static_type. destruct (derefined a) eqn:E; apply Ta; auto. }
  assert (Sb : match static_type b with NoneType => nb = true | OtherType => nb = false | OptionalType => True end).
  { unfold static_type. destruct (derefined b) eqn:E; apply Tb; auto. }
  destruct (static_type a), (static_type b); cbn; subst; split; intros r H; try discriminate; injection H as <-;
    split; try discriminate; auto; try (intros [? ?]; discriminate); try (intros _ [? ?]; discriminate); intros H; exfalso; apply H; auto.
Qed.
Theorem C96_is_folded : forall a b eq, is_or_is_not a b eq <> NoFold <->
  static_type a = NoneType /\ static_type b <> OptionalType \/ static_type b = NoneType /\ static_type a <> OptionalType.
Proof.
  intros a b eq. unfold is_or_is_not. destruct (static_type a), (static_type b); cbn; split; intros H; try congruence;
    try (left; split; congruence); try (right; split; congruence); try (destruct H as [[? ?]|[? ?]]; congruence).
Qed.
Theorem C96_never_undefined : forall a b c eq, is_or_is_not a b eq <> Undefined /\ (forall v, is_or_is_not a b eq <> Value v) /\
  (forall x y v, compare_int c x y <> Undefined /\ compare_int c x y <> Value v).
Proof.
  intros a b c eq. split; [|split].
  - unfold is_or_is_not. destruct (static_type a), (static_type b); discriminate.
  - intros v. unfold is_or_is_not. destruct (static_type a), (static_type b); discriminate.
  - intros x y v. unfold compare_int. repeat match goal with
    | |- context [if ?c then _ else _] => destruct c
    | |- context [match cst ?o with _ => _ end] => destruct (cst o) eqn:?
    end; split; discriminate.
Qed.

(** * Strings *)
Theorem C96_strings : forall env (a b : operand string), sees env a -> sees env b ->
  (forall r, fold_eq_str a b = Attr r -> (r = true <-> env (val a) = env (val b))) /\
  (forall r, fold_ne_str a b = Attr r -> (r = true <-> env (val a) <> env (val b))) /\
  (fold_eq_str a b <> NoFold <-> val a = val b \/ cst a <> None /\ cst b <> None) /\
  (fold_ne_str a b <> NoFold <-> val a = val b \/ cst a <> None /\ cst b <> None).
Proof.
  intros env a b Ha Hb. unfold fold_eq_str, fold_ne_str. destruct (Nat.eqb_spec (val a) (val b)) as [e|n].
  - rewrite e. split; [|split; [|split; split; intros; auto; discriminate]]; intros r [= <-]; split; intros; congruence.
  - destruct (cst a) as [x|] eqn:Ea, (cst b) as [y|] eqn:Eb.
    + rewrite (Ha _ Ea), (Hb _ Eb). split; [|split; [|split; split; intros; try discriminate; right; split; discriminate]];
        intros r [= <-]; destruct (String.eqb_spec x y); cbn; split; intros; congruence.
    + split; [discriminate|split; [discriminate|split; (split; [congruence|intros [?|[_ ?]]; congruence])]].
    + split; [discriminate|split; [discriminate|split; (split; [congruence|intros [?|[? _]]; congruence])]].
    + split; [discriminate|split; [discriminate|split; (split; [congruence|intros [?|[_ ?]]; congruence])]].
Qed.
(** Lengths count bytes; a string of bytes below 128 has as many characters. *)
Definition utf8_characters (s : string) : Z :=
  Z.of_nat (List.length (List.filter (fun c => negb ((128 <=? Z.of_nat (Ascii.nat_of_ascii c)) && (Z.of_nat (Ascii.nat_of_ascii c) <? 192))) (list_ascii_of_string s))).
Theorem C96_string_length_partial : forall (a : operand string) s, cst a = Some s ->
  (forall c, List.In c (list_ascii_of_string s) -> Z.of_nat (Ascii.nat_of_ascii c) < 128) -> fold_len_str a = Attr (utf8_characters s).
Proof.
  intros a s E H. unfold fold_len_str. rewrite E. clear E. f_equal. unfold utf8_characters. f_equal.
  induction s as [|c s IH]; cbn; auto. assert (Hc : Z.of_nat (Ascii.nat_of_ascii c) < 128) by (apply H; now left).
  replace (128 <=? Z.of_nat (Ascii.nat_of_ascii c)) with false by (symmetry; apply Z.leb_gt; lia). cbn. f_equal. apply IH.
  intros d I. apply H. now right.
Qed.
(** The letter é takes two bytes. *)
Theorem C96_string_length_refuted : exists (a : operand string) s, cst a = Some s /\ utf8_characters s = 1 /\ fold_len_str a = Attr 2.
Proof.
  exists {| val := 0; cst := Some (String (Ascii.ascii_of_nat 195) (String (Ascii.ascii_of_nat 169) EmptyString)); is_size := false |}.
  eexists. split; [reflexivity|]. split; reflexivity.
Qed.

Example C96_nonvacuous :
  fold_add {| val := 0; cst := Some 2; is_size := false |} {| val := 1; cst := Some 3; is_size := false |} = Attr 5 /\
  fold_ge {| val := 0; cst := None; is_size := true |} {| val := 1; cst := Some 0; is_size := false |} = Attr true /\
  fold_lt {| val := 1; cst := Some 0; is_size := false |} {| val := 0; cst := None; is_size := true |} = NoFold /\
  fold_gt {| val := 1; cst := Some 0; is_size := false |} {| val := 0; cst := None; is_size := true |} = Attr false /\
  fold_range_length {| val := 0; cst := Some 1; is_size := false |} {| val := 1; cst := Some 8; is_size := false |} {| val := 2; cst := Some 3; is_size := false |} = Attr 3 /\
  fold_is {| ref_type := OptionalType; derefined := Some NoneType |} {| ref_type := NoneType; derefined := None |} = Attr true.
Proof. repeat split; reflexivity. Qed.

Print Assumptions C96_add.
Print Assumptions C96_sub.
Print Assumptions C96_mul.
Print Assumptions C96_neg.
Print Assumptions C96_constants_are_folded.
Print Assumptions C96_folded_without_two_constants.
Print Assumptions C96_undefined.
Print Assumptions C96_max_min.
Print Assumptions C96_remainder_partial.
Print Assumptions C96_remainder_refuted.
Print Assumptions C96_range_length_partial.
Print Assumptions C96_range_length_refuted.
Print Assumptions C96_derive_index.
Print Assumptions C96_booleans.
Print Assumptions C96_booleans_folded.
Print Assumptions C96_conversions.
Print Assumptions C96_comparisons.
Print Assumptions C96_comparisons_folded.
Print Assumptions C96_is_none.
Print Assumptions C96_is_folded.
Print Assumptions C96_never_undefined.
Print Assumptions C96_strings.
Print Assumptions C96_string_length_partial.
Print Assumptions C96_string_length_refuted.
