(** C100: folding transpositions, concatenations, broadcasts and selections of constant tensors. *)
From Coq Require Import ZArith Lia List Bool.
From Verif Require Import Prelude FoldTensorModel FoldTensorSpec FoldSliceProps.
Import ListNotations.
Open Scope Z_scope.

Lemma holds_splat : forall A (f : list Z -> A) out x, Forall (fun n => 0 <= n) out -> (forall idx, within out idx -> f idx = x) -> holds out (repeat x (Z.to_nat (product out))) f.
Proof.
  intros A f out x P H. unfold holds. assert (L : length (indices out) = Z.to_nat (product out)) by (rewrite <- (zlen_indices out P); unfold zlen; lia). rewrite <- L.
  assert (I : forall idx, In idx (indices out) -> f idx = x) by (intros idx Hi; apply H; now apply in_indices). clear - I.
  induction (indices out) as [|i l IH]; cbn; auto. rewrite (I i) by now left. f_equal. apply IH. intros j Hj. apply I. now right.
Qed.
Lemma splat_const : forall A (l : literal A) f x, literal_of l f -> splat_value l = Some x -> forall idx, within (l_sizes l) idx -> f idx = x.
Proof.
  intros A l f x (P & H & S) E idx W. unfold splat_value in E. destruct (l_splat l); [|discriminate].
  assert (Hin : In (f idx) (l_elements l)) by (rewrite H; apply in_map; now apply in_indices). clear H.
  destruct (l_elements l) as [|y ys]; [discriminate|]. cbn in E. injection E as <-. apply S; auto. now left.
Qed.
Lemma within_nth : forall s i, within s i <-> length s = length i /\ forall k n x, nth_error s k = Some n -> nth_error i k = Some x -> 0 <= x < n.
Proof.
  intros s i. split.
  - intros W. induction W as [|n x s i Hx W [L IH]]; [split; auto; intros [|k] ? ? E; discriminate|]. split; [cbn; congruence|]. intros [|k] n' x' E1 E2; cbn in *; [congruence|eauto].
  - revert i. induction s as [|n s IH]; intros [|x i] [L H]; try discriminate; [constructor|]. constructor; [apply (H 0%nat); auto|]. apply IH. split; [cbn in L; congruence|].
    intros k n' x' E1 E2. apply (H (S k)); auto.
Qed.
Lemma nth_at_axis : forall A d (g : A -> A) l k, nth_error (at_axis d g l) k = if Nat.eqb k d then option_map g (nth_error l k) else nth_error l k.
Proof.
  intros A d g. induction d as [|d IH]; intros [|x l] [|k]; cbn; auto. - destruct (Nat.eqb k d); auto.
Qed.
Lemma length_at_axis : forall A d (g : A -> A) l, length (at_axis d g l) = length l.
Proof. intros A d g. induction d as [|d IH]; intros [|x l]; cbn; auto. Qed.
Lemma nth_swap : forall A a b (l : list A) k, (a < length l)%nat -> (b < length l)%nat ->
  nth_error (swap a b l) k = if Nat.eqb k b then nth_error l a else if Nat.eqb k a then nth_error l b else nth_error l k.
Proof.
  intros A a b l k La Lb. unfold swap. destruct (nth_error l a) as [x|] eqn:Ea; [|apply nth_error_None in Ea; lia]. destruct (nth_error l b) as [y|] eqn:Eb; [|apply nth_error_None in Eb; lia].
  rewrite !nth_at_axis. destruct (Nat.eqb_spec k b) as [->|]; [rewrite Eb; destruct (Nat.eqb b a); reflexivity|]. destruct (Nat.eqb_spec k a) as [->|]; auto. now rewrite Ea.
Qed.
Lemma length_swap : forall A a b (l : list A), length (swap a b l) = length l.
Proof. intros A a b l. unfold swap. destruct (nth_error l a); auto. destruct (nth_error l b); auto. now rewrite !length_at_axis. Qed.
Lemma within_swap : forall s i a b, (a < length s)%nat -> (b < length s)%nat -> within (swap a b s) i -> within s (swap a b i).
Proof.
  intros s i a b La Lb W. apply within_nth in W as [L H]. rewrite length_swap in L. apply within_nth. split; [now rewrite length_swap|]. intros k n x En Ex.
  rewrite nth_swap in Ex by lia. destruct (Nat.eqb_spec k b) as [->|Nb].
  - apply (H a); auto. rewrite nth_swap by auto. destruct (Nat.eqb_spec a b) as [->|]; auto. now rewrite Nat.eqb_refl.
  - destruct (Nat.eqb_spec k a) as [->|Na].
    + apply (H b); auto. rewrite nth_swap by auto. now rewrite Nat.eqb_refl.
    + apply (H k); auto. rewrite nth_swap by auto. destruct (Nat.eqb_spec k b); [congruence|]. destruct (Nat.eqb_spec k a); congruence.
Qed.
Lemma nth_ext_error : forall A (l m : list A), (forall k, nth_error l k = nth_error m k) -> l = m.
Proof.
  intros A. induction l as [|x l IH]; intros [|y m] H; auto; try (specialize (H 0%nat); discriminate). f_equal; [specialize (H 0%nat); cbn in H; congruence|].
  apply IH. intros k. apply (H (S k)).
Qed.
Lemma swap_same : forall A a (l : list A), swap a a l = l.
Proof.
  intros A a l. destruct (Nat.lt_ge_cases a (length l)) as [L|L].
  - apply nth_ext_error. intros k. rewrite nth_swap by auto. destruct (Nat.eqb_spec k a); congruence.
  - unfold swap. apply nth_error_None in L. now rewrite L.
Qed.
Lemma nonneg_swap : forall s a b, Forall (fun n => 0 <= n) s -> Forall (fun n => 0 <= n) (swap a b s).
Proof.
  intros s a b P. unfold swap. destruct (nth_error s a) as [x|] eqn:Ea; auto. destruct (nth_error s b) as [y|] eqn:Eb; auto. rewrite Forall_forall in P.
  assert (0 <= x) by (apply P; eapply nth_error_In; eauto). assert (0 <= y) by (apply P; eapply nth_error_In; eauto). apply nonneg_axis; auto. apply nonneg_axis; auto. now apply Forall_forall.
Qed.

(** * Transposition *)
Lemma indices_pairs : forall a b, 0 <= a -> 0 < b -> indices [a; b] = map (fun q => [q / b; q mod b]) (zrange 0 (a * b)).
Proof.
  intros a b Pa Pb. cbn [indices]. remember (Z.to_nat a) as q eqn:Eq. revert a Pa Eq. induction q as [|q IH]; intros a Pa Eq.
  - replace a with 0 by lia. reflexivity.
  - replace a with (a - 1 + 1) at 1 by ring. rewrite zrange_snoc by lia. rewrite flat_map_app. rewrite (IH (a - 1)) by lia. cbn [flat_map]. rewrite app_nil_r.
    assert (Z1 : forall x y z, x <= y <= z -> zrange x z = zrange x y ++ zrange y z).
    { intros x y z Hy. remember (Z.to_nat (z - y)) as r eqn:Er. revert z Hy Er. induction r as [|r IHr]; intros z Hy Er.
      - replace z with y by lia. rewrite (zrange_nil y y) by lia. now rewrite app_nil_r.
      - replace z with (z - 1 + 1) by lia. rewrite !zrange_snoc by lia. rewrite (IHr (z - 1)) by lia. now rewrite app_assoc. }
    rewrite (Z1 0 ((a - 1) * b) (a * b)) by nia. rewrite map_app. f_equal.
    assert (G : forall r j, r = Z.to_nat (b - j) -> 0 <= j -> map (cons (a - 1)) (flat_map (fun i => map (cons i) [[]]) (zrange j b)) = map (fun q => [q / b; q mod b]) (zrange ((a - 1) * b + j) (a * b))).
    { induction r as [|r IHr]; intros j Er Pj.
      - rewrite !zrange_nil by nia. reflexivity.
      - rewrite (zrange_cons j b), (zrange_cons ((a - 1) * b + j) (a * b)) by nia. cbn [flat_map map app]. f_equal.
        + replace ((a - 1) * b + j) with (j + (a - 1) * b) by ring. rewrite Z.div_add, Z.mod_add, Z.div_small, Z.mod_small by lia. reflexivity.
        + replace ((a - 1) * b + j + 1) with ((a - 1) * b + (j + 1)) by ring. apply IHr; lia. }
    specialize (G (Z.to_nat b) 0). rewrite Z.add_0_r in G. apply G; lia.
Qed.
Theorem C100_transpose : forall A (lit : option (literal A)) f d0 d1 selfT resultT sizes a b,
  (forall l, lit = Some l -> literal_of l f /\ l_sizes l = sizes) -> known selfT = Some sizes -> (a < length sizes)%nat -> (b < length sizes)%nat ->
  (d0 = Z.of_nat a \/ d0 = Z.of_nat a - zlen sizes) -> (d1 = Z.of_nat b \/ d1 = Z.of_nat b - zlen sizes) -> known resultT = Some (swap a b sizes) ->
  match fold_transpose lit (Some d0) (Some d1) selfT resultT with
  | TNone => True
  | TOperand k => k = 0%nat /\ (forall i : list Z, swap a b i = i)
  | TLit out vs => out = swap a b sizes /\ holds out vs (fun idx => f (swap a b idx))
  | TError | TBad => False
  end.
Proof.
  intros A lit f d0 d1 selfT resultT sizes a b HL Ks La Lb H0 H1 Kr. unfold fold_transpose. rewrite Ks, Kr. assert (Ts := proj1 (known_spec _ _) Ks). rewrite Ts.
  assert (Zl : zlen (map Some sizes) = zlen sizes) by apply zlen_map. rewrite Zl.
  assert (E0 : to_positive_dim d0 (zlen sizes) = Z.of_nat a) by (unfold to_positive_dim, zlen in *; destruct (Z.leb_spec 0 d0); lia).
  assert (E1 : to_positive_dim d1 (zlen sizes) = Z.of_nat b) by (unfold to_positive_dim, zlen in *; destruct (Z.leb_spec 0 d1); lia).
  cbv zeta. rewrite E0, E1. assert (V : forall c, (c < length sizes)%nat -> is_valid_dim (Z.of_nat c) (zlen sizes) = true) by (intros c Lc; unfold is_valid_dim, zlen; lia).
  rewrite !V by auto. cbn [negb orb]. destruct (Z.eqb_spec (Z.of_nat a) (Z.of_nat b)) as [E|N].
  - split; auto. intros i. replace b with a by lia. apply swap_same.
  - destruct lit as [l|]; auto. destruct (HL l eq_refl) as [Hl Es]. destruct (_ >? 16); auto. destruct (splat_value l) as [x|] eqn:Sx.
    + unfold splat_of. split; auto. apply holds_splat; [apply nonneg_swap; rewrite <- Es; apply Hl|]. intros idx W. apply (splat_const _ _ _ _ Hl Sx). rewrite Es. now apply within_swap.
    + destruct sizes as [|n0 [|n1 [|n2 rest]]]; auto. assert (Sw : swap a b [n0; n1] = [n1; n0]) by (destruct a as [|[|a]], b as [|[|b]]; cbn in La, Lb; try lia; reflexivity).
      destruct Hl as (P & H & _). rewrite Es in P, H. inversion P as [|? ? P0 P']. inversion P' as [|? ? P1 _]. subst.
      assert (Zn : zlen (l_elements l) = n0 * n1) by (rewrite (zlen_holds _ _ _ _ P H); cbn; ring).
      assert (R : mapM (fun i => read (l_elements l) (i mod n0 * n1 + i / n0)) (zrange 0 (zlen (l_elements l))) = Some (map (fun i => f [i mod n0; i / n0]) (zrange 0 (n0 * n1)))).
      { rewrite Zn. rewrite <- (map_id (zrange 0 (n0 * n1))) at 1. apply mapM_map_some. intros i Hi. apply in_zrange in Hi.
        assert (Pn : 0 < n0) by (destruct (Z.eq_dec n0 0) as [->|]; lia).
        assert (W : within [n0; n1] [i mod n0; i / n0]).
        { constructor; [apply Z.mod_pos_bound; auto|]. constructor; [|constructor]. split; [apply Z.div_pos; lia|apply Z.div_lt_upper_bound; lia]. }
        rewrite <- (read_position _ _ _ f _ P H W). f_equal. cbn [position product fold_right]. ring. }
      rewrite R. rewrite Sw. unfold dense. rewrite zlen_map, zlen_zrange.
      destruct (Z.eqb_spec (Z.max 0 (n0 * n1 - 0)) (product [n1; n0])) as [_|C]; [|exfalso; apply C; cbn [product fold_right]; nia].
      split; auto. unfold holds. destruct (Z.eq_dec n0 0) as [->|Nz].
      * cbn [Z.mul]. rewrite Z.mul_0_l. cbn [indices]. rewrite (zrange_nil 0 0) by lia. cbn. induction (zrange 0 n1); auto.
      * rewrite indices_pairs by lia. rewrite map_map, Z.mul_comm. apply map_ext. intros q. f_equal.
        destruct a as [|[|a]], b as [|[|b]]; cbn in La, Lb; try lia; reflexivity.
Qed.
(** Small constants of rank two, and small splats of any rank, are folded. *)
Theorem C100_transpose_is_folded : forall A (l : literal A) f d0 d1 selfT resultT sizes, literal_of l f -> l_sizes l = sizes -> known selfT = Some sizes -> known resultT <> None ->
  - zlen sizes <= d0 < zlen sizes -> - zlen sizes <= d1 < zlen sizes -> product sizes <= 16 -> (length sizes = 2%nat \/ l_splat l = true /\ l_elements l <> []) ->
  fold_transpose (Some l) (Some d0) (Some d1) selfT resultT <> TNone.
Proof.
  intros A l f d0 d1 selfT resultT sizes Hl Es Ks Kr H0 H1 L16 H. unfold fold_transpose. rewrite Ks. assert (Ts := proj1 (known_spec _ _) Ks). rewrite Ts. rewrite zlen_map. cbv zeta.
  assert (V : forall d, - zlen sizes <= d < zlen sizes -> is_valid_dim (to_positive_dim d (zlen sizes)) (zlen sizes) = true) by (intros d Hd; unfold is_valid_dim, to_positive_dim; destruct (Z.leb_spec 0 d); lia).
  rewrite !V by auto. cbn [negb orb]. destruct (_ =? _); [discriminate|]. destruct Hl as (P & Hh & _). rewrite (zlen_holds _ _ _ _ P Hh), Es. destruct (Z.gtb_spec (product sizes) 16); [lia|].
  destruct (known resultT) as [out|]; [|congruence]. unfold splat_value. destruct (l_splat l) eqn:Sp.
  - destruct (l_elements l) as [|x xs]; cbn [hd_error]; [|discriminate]. destruct H as [H|[_ H]]; [|congruence]. destruct sizes as [|n0 [|n1 [|]]]; try discriminate.
    destruct (mapM _ _); [|discriminate]. unfold dense. destruct (_ =? _); [discriminate|]. destruct l0 as [|? [|]]; discriminate.
  - destruct H as [H|[H _]]; [|discriminate]. destruct sizes as [|n0 [|n1 [|]]]; try discriminate.
    destruct (mapM _ _) as [vs|]; [|discriminate]. unfold dense. destruct (_ =? _); [discriminate|]. destruct vs as [|? [|]]; discriminate.
Qed.

(** * Concatenation *)
(** The element of the concatenation at position i of the axis: pieces with their sizes. *)
Fixpoint piece_at {A} (pieces : list (Z * (Z -> A))) (i : Z) : option A :=
  match pieces with
  | [] => None
  | (n, f) :: r => if i <? n then Some (f i) else piece_at r (i - n)
  end.
Definition total {A} (pieces : list (Z * (Z -> A))) : Z := fold_right (fun q s => fst q + s) 0 pieces.
(** Sizes that are 1 except for one axis. *)
Definition line (sizes : list Z) (dn : nat) (n : Z) : Prop := nth_error sizes dn = Some n /\ forall k m, nth_error sizes k = Some m -> k <> dn -> m = 1.
Definition zeros (sizes : list Z) : list Z := map (fun _ => 0) sizes.
Lemma line_cons : forall m sizes dn n, line (m :: sizes) (S dn) n <-> m = 1 /\ line sizes dn n.
Proof.
  intros m sizes dn n. unfold line. split.
  - intros [E H]. split; [apply (H 0%nat m); auto|]. split; auto. intros k q Eq Nk. apply (H (S k) q); auto.
  - intros [-> [E H]]. split; auto. intros [|k] q Eq Nk; cbn in *; [congruence|]. apply (H k q); auto.
Qed.
Lemma ones_indices : forall sizes, (forall k m, nth_error sizes k = Some m -> m = 1) -> indices sizes = [zeros sizes] /\ product sizes = 1.
Proof.
  induction sizes as [|m sizes IH]; intros H; [auto|]. assert (m = 1) by (apply (H 0%nat); auto). subst. destruct (IH (fun k q E => H (S k) q E)) as [E1 E2].
  cbn [indices]. rewrite E1. split; [reflexivity|]. change (1 * product sizes = 1). rewrite E2. reflexivity.
Qed.
Lemma line_indices : forall sizes dn n, 0 <= n -> line sizes dn n -> indices sizes = map (fun i => at_axis dn (fun _ => i) (zeros sizes)) (zrange 0 n) /\ product sizes = n.
Proof.
  induction sizes as [|m sizes IH]; intros dn n Pn L; [destruct L as [L _]; destruct dn; discriminate|]. destruct dn as [|dn].
  - destruct L as [E H]. cbn in E. injection E as ->. destruct (ones_indices sizes) as [E1 E2]; [intros k m E; apply (H (S k) m); auto|]. split.
    + cbn [indices]. rewrite E1. cbn [zeros map at_axis]. induction (zrange 0 n) as [|x l IHl]; cbn; auto; now rewrite IHl.
    + change (n * product sizes = n). rewrite E2. ring.
  - apply line_cons in L as [-> L]. destruct (IH dn n Pn L) as [E1 E2]. split; [|change (1 * product sizes = n); lia].
    cbn [indices]. change (zrange 0 1) with [0]. cbn [flat_map]. rewrite app_nil_r, E1, map_map. reflexivity.
Qed.
Lemma others_line : forall sizes k d dn n, nth_error sizes dn = Some n -> d = k + Z.of_nat dn -> (others_are_one k d sizes = true <-> line sizes dn n).
Proof.
  induction sizes as [|m sizes IH]; intros k d dn n E Ed; [destruct dn; discriminate|]. cbn [others_are_one]. destruct dn as [|dn].
  - cbn in E. injection E as ->. replace (k =? d) with true by lia. cbn [orb andb].
    assert (G : forall sizes' k', d < k' -> (others_are_one k' d sizes' = true <-> forall q m, nth_error sizes' q = Some m -> m = 1)).
    { induction sizes' as [|m sizes' IH']; intros k' Lk; [split; auto; intros _ [|q] ? E; discriminate|]. cbn [others_are_one]. destruct (Z.eqb_spec k' d); [lia|]. cbn [orb].
      rewrite andb_true_iff, Z.eqb_eq, (IH' (k' + 1)) by lia. split.
      - intros [-> H] [|q] m' E; cbn in E; [congruence|eauto].
      - intros H. split; [apply (H 0%nat); auto|]. intros q m' E. apply (H (S q) m' E). }
    rewrite G by lia. unfold line. split.
    + intros H. split; auto. intros [|q] m' E N; [congruence|]. apply (H q m' E).
    + intros [_ H] q m' E. apply (H (S q) m'); auto.
  - destruct (Z.eqb_spec k d); [lia|]. cbn [orb]. rewrite andb_true_iff, Z.eqb_eq, (IH (k + 1) d dn n) by (auto; lia). symmetry. apply line_cons.
Qed.
Lemma cat_piece_spec : forall A (l : literal A) f dn n, literal_of l f -> line (l_sizes l) dn n ->
  cat_piece (Z.of_nat dn) l = Some (map (fun i => f (at_axis dn (fun _ => i) (zeros (l_sizes l)))) (zrange 0 n)).
Proof.
  intros A l f dn n Hl L. assert (Pn : 0 <= n) by (destruct L as [E _]; apply nth_error_In in E; destruct Hl as [P _]; rewrite Forall_forall in P; auto).
  destruct (line_indices _ _ _ Pn L) as [Ei Ep]. unfold cat_piece, size_at. unfold read at 1. destruct (Z.ltb_spec (Z.of_nat dn) 0) as [|_]; [lia|]. rewrite Nat2Z.id, (proj1 L). cbn [obind].
  assert (H := proj1 (proj2 Hl)). unfold holds in H. rewrite Ei, map_map in H. destruct (splat_value l) as [x|] eqn:Sx.
  - f_equal. assert (Q : forall i, In i (zrange 0 n) -> f (at_axis dn (fun _ => i) (zeros (l_sizes l))) = x).
    { intros i Hi. apply (splat_const _ _ _ _ Hl Sx). apply in_indices. rewrite Ei. apply in_map_iff. eauto. }
    assert (Lz : length (zrange 0 n) = Z.to_nat n) by (assert (Z0 := zlen_zrange 0 n); unfold zlen in Z0; lia). rewrite <- Lz. clear - Q.
    induction (zrange 0 n) as [|i z IH]; cbn; auto. rewrite (Q i) by now left. f_equal. apply IH. intros j Hj. apply Q. now right.
  - rewrite <- (map_id (zrange 0 n)) at 1. apply mapM_map_some. intros i Hi. apply in_zrange in Hi. unfold read. destruct (Z.ltb_spec i 0); [lia|].
    rewrite H, nth_error_map. enough (nth_error (zrange 0 n) (Z.to_nat i) = Some i) as -> by reflexivity.
    assert (G : forall q a, q = Z.to_nat (i - a) -> a <= i -> nth_error (zrange a n) (Z.to_nat (i - a)) = Some i).
    { induction q as [|q IH]; intros a Eq La; rewrite zrange_cons by lia.
      - replace a with i by lia. now rewrite Z.sub_diag.
      - replace (Z.to_nat (i - a)) with (S (Z.to_nat (i - (a + 1)))) by lia. apply IH; lia. }
    specialize (G (Z.to_nat (i - 0)) 0 eq_refl). rewrite Z.sub_0_r in G. apply G. lia.
Qed.
(** One operand of a concatenation with these pieces. *)
Definition operand_of {A} (dn : nat) (dt : Z) (o : cat_operand A) (q : Z * (Z -> A)) : Prop :=
  t_dtype (c_type o) = Some dt /\ exists l f, c_literal o = Some l /\ literal_of l f /\ line (l_sizes l) dn (fst q) /\ forall i, snd q i = f (at_axis dn (fun _ => i) (zeros (l_sizes l))).
Lemma cat_values_spec : forall A dn dt (os : list (cat_operand A)) ps, Forall2 (operand_of dn dt) os ps ->
  cat_values (Z.of_nat dn) dt os = Some (Some (flat_map (fun q => map (snd q) (zrange 0 (fst q))) ps)) /\ Forall (fun q => 0 <= fst q) ps.
Proof.
  intros A dn dt os ps H. induction H as [|o [n f'] os ps (D & l & f & Lo & Hl & Ll & Ef) H [IH P]]; [split; auto; reflexivity|]. cbn [cat_values flat_map fst snd] in *.
  rewrite Lo, (cat_piece_spec _ l f dn n Hl Ll), IH, D. cbn [opt_eqb]. rewrite Z.eqb_refl. split.
  - f_equal. f_equal. f_equal. apply map_ext. intros i. now rewrite Ef.
  - constructor; auto. cbn. destruct Ll as [E _]. apply nth_error_In in E. destruct Hl as [Pl _]. rewrite Forall_forall in Pl. auto.
Qed.
Lemma pieces_in_order : forall A (ps : list (Z * (Z -> A))), Forall (fun q => 0 <= fst q) ps ->
  map Some (flat_map (fun q => map (snd q) (zrange 0 (fst q))) ps) = map (piece_at ps) (zrange 0 (total ps)) /\ 0 <= total ps.
Proof.
  intros A ps P. induction P as [|[n f] ps Pn P [IH Pt]]; [split; [reflexivity|cbn; lia]|]. cbn [flat_map fst snd] in *. change (total ((n, f) :: ps)) with (n + total ps). split; [|lia].
  rewrite map_app, IH.
  assert (Z1 : forall x y z, x <= y <= z -> zrange x z = zrange x y ++ zrange y z).
  { intros x y z Hy. remember (Z.to_nat (z - y)) as r eqn:Er. revert z Hy Er. induction r as [|r IHr]; intros z Hy Er.
    - replace z with y by lia. rewrite (zrange_nil y y) by lia. now rewrite app_nil_r.
    - replace z with (z - 1 + 1) by lia. rewrite !zrange_snoc by lia. rewrite (IHr (z - 1)) by lia. now rewrite app_assoc. }
  rewrite (Z1 0 n (n + total ps)) by lia. rewrite map_app. f_equal.
  - rewrite map_map. apply map_ext_in. intros i Hi. apply in_zrange in Hi. cbn [piece_at]. destruct (Z.ltb_spec i n); [auto|lia].
  - assert (G : forall r j, r = Z.to_nat (total ps - j) -> 0 <= j -> map (piece_at ps) (zrange j (total ps)) = map (piece_at ((n, f) :: ps)) (zrange (n + j) (n + total ps))).
    { induction r as [|r IHr]; intros j Er Pj; [rewrite !zrange_nil by lia; reflexivity|]. rewrite (zrange_cons j (total ps)), (zrange_cons (n + j) (n + total ps)) by lia. cbn [map].
      rewrite (IHr (j + 1)) by lia. f_equal; [|f_equal; f_equal; lia]. cbn [piece_at]. destruct (Z.ltb_spec (n + j) n); [lia|]. f_equal. lia. }
    specialize (G _ 0 eq_refl ltac:(lia)). rewrite Z.add_0_r in G. exact G.
Qed.
(** C100. Small concatenations of constants along the only axis that is not 1 have the elements of the pieces, in order. *)
Theorem C100_cat_partial : forall A (os : list (cat_operand A)) ps d resultT out dn n dt, Forall2 (operand_of dn dt) os ps -> known resultT = Some out -> t_dtype resultT = Some dt ->
  (d = Z.of_nat dn \/ d = Z.of_nat dn - zlen out) -> (dn < length out)%nat -> line out dn n -> n = total ps -> n <= 16 ->
  (forall o, os = [o] -> c_type o <> resultT) ->
  exists vs, fold_cat (Some os) (Some d) resultT = TLit out vs /\ map Some vs = map (fun idx => do i <- nth_error idx dn; piece_at ps i) (indices out).
Proof.
  intros A os ps d resultT out dn n dt Hos Kr Dr Hd Ln Lo En L16 Ns. unfold fold_cat.
  replace (match os with [o] => type_eqb (c_type o) resultT | _ => false end) with false.
  2:{ destruct os as [|o [|]]; auto. symmetry. apply not_true_is_false. intros T. apply type_eqb_spec in T. now apply (Ns o eq_refl). }
  rewrite Kr, Dr. destruct (cat_values_spec A dn dt os ps Hos) as [Cv Pp]. destruct (pieces_in_order A ps Pp) as [Ord Pt].
  destruct (line_indices out dn n ltac:(lia) Lo) as [Ei Ep]. rewrite Ep. destruct (Z.gtb_spec n 16); [lia|].
  assert (Ed : d + (if d <? 0 then zlen out else 0) = Z.of_nat dn) by (unfold zlen in *; destruct (Z.ltb_spec d 0); lia). cbv zeta. rewrite Ed.
  rewrite (proj2 (others_line out 0 (Z.of_nat dn) dn n (proj1 Lo) eq_refl) Lo). rewrite Cv. unfold dense.
  set (vs := flat_map _ ps) in *. assert (Lv : zlen vs = n). { assert (Q : zlen (map Some vs) = n) by (rewrite Ord, zlen_map, zlen_zrange; lia). now rewrite zlen_map in Q. }
  rewrite Lv, Ep, Z.eqb_refl. exists vs. split; auto. rewrite Ord, Ei, map_map, En. apply map_ext. intros i.
  rewrite nth_at_axis, Nat.eqb_refl. unfold zeros. rewrite nth_error_map, (proj1 Lo). reflexivity.
Qed.
(** An empty operand of rank one, which the operation ignores, is asked for its size along an axis it does not have; operands of another element type than the
    result's fail an assertion. *)
Theorem C100_cat_refuted : exists A (os : list (cat_operand A)) resultT (os' : list (cat_operand A)),
  fold_cat (Some os) (Some 1) resultT = TBad /\ map (fun o => t_sizes (c_type o)) os = [Some [Some 1; Some 2]; Some [Some 0]] /\
  fold_cat (Some os') (Some 0) {| t_sizes := Some [Some 2]; t_dtype := Some 6 |} = TBad /\ map (fun o => t_dtype (c_type o)) os' = [Some 4; Some 6].
Proof.
  exists Z, [{| c_type := {| t_sizes := Some [Some 1; Some 2]; t_dtype := Some 4 |}; c_literal := Some {| l_sizes := [1; 2]; l_splat := false; l_elements := [5; 6] |} |};
             {| c_type := {| t_sizes := Some [Some 0]; t_dtype := Some 4 |}; c_literal := Some {| l_sizes := [0]; l_splat := false; l_elements := [] |} |}],
    {| t_sizes := Some [Some 1; Some 2]; t_dtype := Some 4 |},
    [{| c_type := {| t_sizes := Some [Some 1]; t_dtype := Some 4 |}; c_literal := Some {| l_sizes := [1]; l_splat := true; l_elements := [5] |} |};
     {| c_type := {| t_sizes := Some [Some 1]; t_dtype := Some 6 |}; c_literal := Some {| l_sizes := [1]; l_splat := true; l_elements := [6] |} |}]. repeat split.
Qed.
Theorem C100_cat_answers : forall A (os : option (list (cat_operand A))) dim resultT,
  (forall k, fold_cat os dim resultT = TOperand k <-> k = 0%nat /\ exists o, os = Some [o] /\ c_type o = resultT) /\
  (fold_cat os dim resultT <> TNone -> (exists o, os = Some [o] /\ c_type o = resultT) \/
     exists l out, os = Some l /\ known resultT = Some out /\ t_dtype resultT <> None /\ dim <> None /\ product out <= 16).
Proof.
  intros A os dim resultT. unfold fold_cat. destruct os as [l|]; [|split; [intros k; split; [discriminate|intros (_ & o & H & _); discriminate]|congruence]].
  destruct (match l with [o] => type_eqb (c_type o) resultT | _ => false end) eqn:T.
  - destruct l as [|o [|]]; try discriminate. apply type_eqb_spec in T. split; [|eauto]. intros k. split; [intros [= <-]; eauto|intros (-> & _); auto].
  - assert (No : ~ exists o, Some l = Some [o] /\ c_type o = resultT). { intros (o & [= ->] & E). apply type_eqb_spec in E. congruence. }
    match goal with |- (forall k, ?e = _ <-> _) /\ _ => set (r := e) end.
    assert (R : (r <> TNone -> exists out, known resultT = Some out /\ t_dtype resultT <> None /\ dim <> None /\ product out <= 16) /\ forall k, r <> TOperand k).
    { unfold r. destruct (known resultT) as [out|]; [|split; congruence]. destruct (t_dtype resultT); [|split; congruence]. destruct dim; [|split; congruence].
      destruct (Z.gtb_spec (product out) 16); [split; congruence|]. cbv zeta. split.
      - intros _. exists out. repeat split; auto; discriminate.
      - intros k. destruct (others_are_one _ _ _); [|discriminate]. destruct (cat_values _ _ _) as [[vs|]|]; try discriminate. unfold dense. destruct (_ =? _); [discriminate|].
        destruct vs as [|? [|]]; discriminate. }
    destruct R as [R1 R2]. split.
    + intros k. split; [intros E; now apply R2 in E|]. intros (_ & H). contradiction.
    + intros N. right. destruct (R1 N) as (out & ?). exists l, out. tauto.
Qed.
(** ** Dropping empty operands *)
(** An operand without elements: of rank one and size 0, or of size 0 along the axis. *)
Definition empty_type (d : Z) (t : tensor_type) : Prop := t_sizes t = Some [Some 0] \/ exists s, t_sizes t = Some s /\ read s (if d <? 0 then d + zlen s else d) = Some (Some 0).
Lemma opt_eqb_spec : forall x y, opt_eqb x y = true <-> x = y.
Proof. intros [x|] [y|]; cbn; try (split; [discriminate|congruence]); [rewrite Z.eqb_eq; split; congruence|tauto]. Qed.
Lemma keep_spec : forall types k d r, keep k d types = Some (Some r) ->
  forall i, In i r <-> exists t, nth_error types (i - k) = Some t /\ (k <= i)%nat /\ ~ empty_type d t.
Proof.
  induction types as [|t ts IH]; intros k d r H i; cbn [keep] in H.
  - injection H as <-. split; [intros []|]. intros (t & E & _). destruct (i - k)%nat; discriminate.
  - assert (Step : forall r', keep (S k) d ts = Some (Some r') -> (exists t', nth_error (t :: ts) (i - k) = Some t' /\ (k <= i)%nat /\ ~ empty_type d t') <-> (i = k /\ ~ empty_type d t) \/ In i r').
    { intros r' Hr. rewrite (IH (S k) d r' Hr i). split.
      - intros (t' & E & L & N). destruct (i - k)%nat as [|q] eqn:Q; cbn in E.
        + injection E as <-. left. split; auto. lia.
        + right. exists t'. split; [now replace (i - S k)%nat with q by lia|]. split; auto. lia.
      - intros [[-> N]|(t' & E & L & N)]; [exists t; rewrite Nat.sub_diag; auto|]. exists t'. replace (i - k)%nat with (S (i - S k)) by lia. split; auto. split; auto. lia. }
    destruct (t_sizes t) as [s|] eqn:Es; [|discriminate].
    destruct (match s with [Some 0] => true | _ => false end) eqn:Z0.
    + rewrite (Step r H). assert (E : empty_type d t). { left. rewrite Es. f_equal. destruct s as [|[[| |]|] [|]]; try discriminate. reflexivity. } tauto.
    + destruct (read s _) as [n|] eqn:Rd; [|discriminate]. destruct (keep (S k) d ts) as [[r'|]|] eqn:Hk; try discriminate. injection H as <-. rewrite (Step r' eq_refl).
      assert (Em : empty_type d t <-> n = Some 0).
      { split; [|intros ->; right; eauto]. intros [E|(s' & E & R)]; rewrite Es in E; injection E as E; [subst s; cbn in Z0; discriminate|]. subst s'. congruence. }
      destruct (opt_eqb n (Some 0)) eqn:O.
      * apply opt_eqb_spec in O. apply Em in O. tauto.
      * assert (~ empty_type d t) by (rewrite Em; intros E; apply opt_eqb_spec in E; congruence). cbn [In]. split; [intros [<-|?]; auto|]. intros [[-> _]|?]; auto.
Qed.
(** C100. The operands that are dropped are exactly the empty ones, and it applies exactly when there is one and all sizes are in view. *)
Theorem C100_cat_pattern : forall types d r, rewrite_cat types (Some d) = Some (Some r) ->
  (forall i, In i r <-> exists t, nth_error types i = Some t /\ ~ empty_type d t) /\ (length r < length types)%nat /\ Forall (fun t => t_sizes t <> None) types.
Proof.
  intros types d r H. unfold rewrite_cat in H. destruct (keep 0 d types) as [[r'|]|] eqn:K; try discriminate. destruct (Nat.eqb_spec (length r') (length types)) as [|N]; [discriminate|]. injection H as <-.
  split; [|split].
  - intros i. rewrite (keep_spec _ _ _ _ K i), Nat.sub_0_r. split; [intros (t & E & _ & N'); eauto|intros (t & E & N'); exists t; repeat split; auto; lia].
  - assert (G : forall types k r', keep k d types = Some (Some r') -> (length r' <= length types)%nat); [|specialize (G types 0%nat r' K); lia]. clear.
    induction types as [|t ts IH]; intros k r' H; cbn [keep] in H; [injection H as <-; auto|]. destruct (t_sizes t) as [s|]; [|discriminate].
    destruct (match s with [Some 0] => true | _ => false end); [specialize (IH _ _ H); cbn; lia|]. destruct (read s _); [|discriminate].
    destruct (keep (S k) d ts) as [[q|]|] eqn:Kq; try discriminate. injection H as <-. specialize (IH _ _ Kq). destruct (opt_eqb _ _); cbn; lia.
  - clear N. revert r' K. generalize 0%nat. induction types as [|t ts IH]; intros k r' K; [constructor|]. cbn [keep] in K. destruct (t_sizes t) as [s|] eqn:Es; [|discriminate]. constructor; [congruence|].
    destruct (match s with [Some 0] => true | _ => false end); [eauto|]. destruct (read s _); [|discriminate]. destruct (keep (S k) d ts) as [[q|]|] eqn:Kq; try discriminate. eauto.
Qed.
Theorem C100_cat_pattern_keeps_elements : forall A (ps : list (Z * (Z -> A))) (kept : list bool) i, length kept = length ps ->
  Forall (fun q => 0 <= fst q) ps -> (forall k q, nth_error ps k = Some q -> nth_error kept k = Some false -> fst q = 0) -> 0 <= i ->
  piece_at (map fst (filter snd (combine ps kept))) i = piece_at ps i.
Proof.
  intros A ps. induction ps as [|[n f] ps IH]; intros [|b kept] i L P H Pi; try discriminate; auto. inversion P as [|? ? Pn P']. subst. cbn [combine filter snd] in *.
  destruct b; cbn [map fst piece_at] in *.
  - destruct (Z.ltb_spec i n); auto. apply IH; auto; [intros k q E1 E2; apply (H (S k)); auto|lia].
  - assert (n = 0) by (apply (H 0%nat (n, f)); auto). subst. destruct (Z.ltb_spec i 0); [lia|]. rewrite Z.sub_0_r. apply IH; auto; [intros k q E1 E2; apply (H (S k)); auto].
Qed.
(** If all operands are empty, nothing is left to concatenate. *)
Theorem C100_cat_pattern_refuted : forall types d, types <> [] -> Forall (fun t => exists s, t_sizes t = Some s /\ read s (if d <? 0 then d + zlen s else d) = Some (Some 0)) types ->
  rewrite_cat types (Some d) = Some (Some []).
Proof.
  intros types d Ne H. unfold rewrite_cat. assert (K : forall k, keep k d types = Some (Some [])).
  { clear Ne. induction H as [|t ts (s & Es & R) H IH]; intros k; cbn [keep]; auto. rewrite Es. destruct (match s with [Some 0] => true | _ => false end); auto. now rewrite R, IH. }
  rewrite K. destruct types; [congruence|reflexivity].
Qed.

(** * Broadcasting *)
Theorem C100_broadcast : forall A (lit : option (literal A)) f inT outT ins out, (forall l, lit = Some l -> literal_of l f /\ l_sizes l = ins) -> known inT = Some ins -> known outT = Some out ->
  Forall (fun n => 0 <= n) out ->
  match fold_broadcast lit inT outT with
  | TNone => True
  | TOperand k => k = 0%nat /\ ins = out
  | TLit o vs => o = out /\ forall back : list Z -> list Z, (forall idx, within out idx -> within ins (back idx)) -> holds out vs (fun idx => f (back idx))
  | TError | TBad => False
  end /\ (fold_broadcast lit inT outT <> TNone <-> t_dtype outT <> None /\ (ins = out \/ exists l, lit = Some l /\ l_splat l = true /\ l_elements l <> [])).
Proof.
  intros A lit f inT outT ins out HL Ki Ko P. unfold fold_broadcast. rewrite Ki, Ko. apply known_spec in Ki, Ko. rewrite Ki, Ko.
  assert (inj : sizes_eqb (map Some ins) (map Some out) = true <-> ins = out).
  { rewrite sizes_eqb_spec. split; [|congruence]. clear. revert out. induction ins; intros [|]; cbn; try discriminate; auto. intros [= -> H]. f_equal. auto. }
  destruct (t_dtype outT) as [dt|]; [|split; [auto|split; [congruence|intros [? _]; congruence]]].
  destruct (sizes_eqb _ _) eqn:T.
  - split; [split; auto; now apply inj|]. split; [|discriminate]. intros _. split; [discriminate|left; now apply inj].
  - assert (Nio : ins <> out) by (intros E; apply inj in E; congruence). destruct lit as [l|]; cbn [obind].
    + destruct (HL l eq_refl) as [Hl Es]. destruct (splat_value l) as [x|] eqn:Sx.
      * split; [split; auto; intros back Hb; apply holds_splat; auto; intros idx W; apply (splat_const _ _ _ _ Hl Sx); rewrite Es; auto|].
        split; [|discriminate]. intros _. split; [discriminate|]. right. exists l. unfold splat_value in Sx. destruct (l_splat l); [|discriminate]. destruct (l_elements l); [discriminate|]. repeat split; discriminate.
      * split; auto. split; [congruence|]. intros [_ [E|(l' & [= <-] & E1 & E2)]]; [congruence|]. unfold splat_value in Sx. rewrite E1 in Sx. destruct (l_elements l); [congruence|discriminate].
    + split; auto. split; [congruence|]. intros [_ [E|(l' & ? & _)]]; congruence.
Qed.

(** * Selection of an index *)
Lemma within_insert : forall s idx dn n i, nth_error s dn = Some n -> 0 <= i < n -> within (remove dn s) idx -> within s (insert dn i idx).
Proof.
  induction s as [|m s IH]; intros idx dn n i E Hi W; [destruct dn; discriminate|]. destruct dn as [|dn]; cbn [remove insert] in *.
  - cbn in E. injection E as ->. destruct idx; constructor; auto.
  - inversion W as [|? x ? xs Hx Hxs]. subst. constructor; auto. eapply IH; eauto.
Qed.
Theorem C100_select_partial : forall A (l : literal A) f dn n d i resultT vs out, literal_of l f -> nth_error (l_sizes l) dn = Some n -> d = Z.of_nat dn -> 0 <= i < n ->
  known resultT = Some (remove dn (l_sizes l)) -> fold_select (Some l) (Some d) (Some i) resultT = TLit out vs ->
  out = remove dn (l_sizes l) /\ holds out vs (fun idx => f (insert dn i idx)).
Proof.
  intros A l f dn n d i resultT vs out Hl En Ed Hi Kr F. unfold fold_select in F. rewrite Kr in F. destruct (t_dtype resultT); [|discriminate].
  assert (P : Forall (fun n => 0 <= n) (remove dn (l_sizes l))).
  { destruct Hl as [P _]. clear - P. revert dn. induction P as [|m s Pm P IH]; intros [|dn]; cbn; auto. }
  destruct (splat_value l) as [x|] eqn:Sx.
  - injection F as <- <-. split; auto. apply holds_splat; auto. intros idx W. apply (splat_const _ _ _ _ Hl Sx). now apply (within_insert _ _ _ n).
  - destruct (negb _); [discriminate|]. rewrite Ed in F. destruct (others_are_one 0 (Z.of_nat dn) (l_sizes l)) eqn:O; [|discriminate].
    apply (others_line _ 0 (Z.of_nat dn) dn n En eq_refl) in O. destruct (read (l_elements l) i) as [x|] eqn:R; [|discriminate]. injection F as <- <-. split; auto. apply holds_splat; auto. intros idx W.
    destruct (line_indices _ dn n ltac:(lia) O) as [Ei _]. destruct Hl as (Pl & H & _).
    assert (Wi : within (l_sizes l) (insert dn i idx)) by (now apply (within_insert _ _ _ n)).
    assert (Pos : position (l_sizes l) (insert dn i idx) = i).
    { assert (Z1 : forall s, (forall k m, nth_error s k = Some m -> m = 1) -> product s = 1) by (intros s Hs; now apply ones_indices).
      clear - O Wi En Z1. revert dn idx O Wi En. induction (l_sizes l) as [|m s IH]; intros [|dn] idx O Wi En; try discriminate.
      - destruct idx as [|x idx]; cbn [insert] in *; inversion Wi as [|? ? ? ? ? Ws]; subst; cbn [position]; (rewrite (Z1 s); [|intros k m' E; apply (proj2 O (S k) m'); auto]).
        + inversion Ws. subst. cbn. ring.
        + assert (Q : forall s j, (forall k m, nth_error s k = Some m -> m = 1) -> within s j -> position s j = 0).
          { clear. induction s as [|m s IH]; intros j H W; inversion W; subst; auto. cbn [position]. rewrite (IH l') by (auto; intros k q E; apply (H (S k)); auto). assert (m = 1) by (apply (H 0%nat); auto). replace y with 0 by lia. ring. }
          rewrite Q; auto; [ring|]. intros k m' E. apply (proj2 O (S k) m'); auto.
      - apply line_cons in O as [-> O]. destruct idx as [|x idx]; cbn [insert] in *; inversion Wi as [|? ? ? ? Hx Ws]; subst.
        + inversion Ws; subst. destruct dn; discriminate.
        + cbn [position]. replace x with 0 by lia. rewrite (IH dn idx O Ws En). ring. }
    rewrite <- Pos in R. rewrite (read_position _ _ _ f _ Pl H Wi) in R. congruence.
Qed.
(** An index from the end is read in front of the elements, unless the constant is a splat. *)
Theorem C100_select_refuted : forall A (l : literal A) dn n i resultT out, nth_error (l_sizes l) dn = Some n -> line (l_sizes l) dn n -> l_splat l = false -> i < 0 ->
  known resultT = Some out -> t_dtype resultT <> None -> product out = 1 -> fold_select (Some l) (Some (Z.of_nat dn)) (Some i) resultT = TBad.
Proof.
  intros A l dn n i resultT out En L Sp Pi Kr Dr P1. unfold fold_select. rewrite Kr. destruct (t_dtype resultT); [|congruence]. unfold splat_value. rewrite Sp, P1.
  rewrite (proj2 (others_line _ 0 (Z.of_nat dn) dn n En eq_refl) L). cbn. unfold read. destruct (Z.ltb_spec i 0); [auto|lia].
Qed.
Theorem C100_select_is_folded : forall A (l : literal A) f dn n i resultT out, literal_of l f -> line (l_sizes l) dn n -> 0 <= i < n -> known resultT = Some out -> t_dtype resultT <> None -> product out = 1 ->
  exists vs, fold_select (Some l) (Some (Z.of_nat dn)) (Some i) resultT = TLit out vs.
Proof.
  intros A l f dn n i resultT out Hl L Hi Kr Dr P1. unfold fold_select. rewrite Kr. destruct (t_dtype resultT); [|congruence]. destruct (splat_value l); [unfold splat_of; eauto|].
  rewrite P1, (proj2 (others_line _ 0 (Z.of_nat dn) dn n (proj1 L) eq_refl) L). cbn [Z.eqb Pos.eqb negb]. destruct (line_indices _ dn n ltac:(lia) L) as [_ Ep]. destruct Hl as (P & H & _).
  assert (Lz := zlen_holds _ _ _ _ P H). rewrite Ep in Lz. unfold read. destruct (Z.ltb_spec i 0); [lia|]. destruct (nth_error (l_elements l) (Z.to_nat i)) eqn:E; [unfold splat_of; eauto|].
  apply nth_error_None in E. unfold zlen in Lz. lia.
Qed.
(** ** aten.index_select *)
Lemma select_sizes_spec : forall ss rs k d, length ss = length rs -> select_sizes k d (map Some ss) rs = true <->
  (forall q n, nth_error ss q = Some n -> k + Z.of_nat q <> d -> n = 1) /\ Forall (fun r => r = Some 1) rs.
Proof.
  induction ss as [|n ss IH]; intros [|r rs] k d L; try discriminate.
  - split; auto. intros _. split; [intros [|q] ? E; discriminate|constructor].
  - cbn [map select_sizes]. rewrite !andb_true_iff, orb_true_iff, !opt_eqb_spec, Z.eqb_eq, IH by (cbn in L; congruence). split.
    + intros [[[E|E] ->] [H F]]; (split; [|constructor; auto]); intros [|q] m Em N; cbn in Em; try (injection Em as <-; congruence || lia); apply (H q m Em); lia.
    + intros [H F]. inversion F as [|? ? Fr F']. subst. split; [split; auto|].
      * destruct (Z.eq_dec k d) as [->|N]; auto. left. f_equal. apply (H 0%nat); auto. lia.
      * split; auto. intros q m Em N. apply (H (S q) m Em). lia.
Qed.
Theorem C100_index_select : forall A (lit : option (literal A)) f index i selfT indexT resultT ss dn n d, (forall l, lit = Some l -> literal_of l f /\ l_sizes l = ss) ->
  (forall x, index = Some x -> splat_value x = Some i) -> known selfT = Some ss -> nth_error ss dn = Some n -> (d = Z.of_nat dn \/ d = Z.of_nat dn - zlen ss) -> - n <= i < n ->
  Forall (fun n => 0 <= n) ss -> (exists rn, known resultT = Some (at_axis dn (fun _ => rn) ss) /\ t_sizes indexT = Some [Some rn]) ->
  match fold_index_select lit (Some d) index selfT indexT resultT with
  | TNone => True
  | TOperand k => k = 0%nat /\ known resultT = Some ss /\ forall idx, within ss idx -> at_axis dn (fun _ => if i <? 0 then i + n else i) idx = idx
  | TLit out vs => known resultT = Some out /\ holds out vs (fun idx => f (at_axis dn (fun _ => if i <? 0 then i + n else i) idx))
  | TError | TBad => False
  end.
Proof.
  intros A lit f index i selfT indexT resultT ss dn n d HL HI Ks En Hd Hi Pss (rn & Kr & Is).
  set (i' := if i <? 0 then i + n else i). assert (Hi' : 0 <= i' < n) by (unfold i'; destruct (Z.ltb_spec i 0); lia).
  unfold fold_index_select. assert (Ts := proj1 (known_spec _ _) Ks). assert (Tr := proj1 (known_spec _ _) Kr). rewrite Ts, Tr, Is.
  destruct (t_dtype selfT) as [sd|]; auto. destruct (t_dtype indexT); auto. destruct (t_dtype resultT) as [rd|]; auto.
  destruct (negb (sd =? rd)); cbn [orb]; auto. rewrite !map_length, length_at_axis, Nat.eqb_refl. cbn [negb orb length Nat.eqb].
  destruct (sizes_eqb _ _ && _ && _) eqn:C.
  - apply andb_prop in C as [C C3]. apply andb_prop in C as [C1 _]. apply sizes_eqb_spec in C1.
    assert (inj : forall a b : list Z, map Some a = map Some b -> a = b) by (induction a; intros [|]; cbn; try discriminate; auto; intros [= -> H]; f_equal; auto).
    apply inj in C1. split; auto. split; [now rewrite Kr, <- C1|]. intros idx W. assert (rn = 1) by (destruct rn as [|[]|]; congruence). subst rn.
    assert (n = 1). { assert (Q : nth_error (at_axis dn (fun _ => 1) ss) dn = Some n) by (now rewrite <- C1). rewrite nth_at_axis, Nat.eqb_refl, En in Q. cbn in Q. congruence. } subst n.
    apply nth_ext_error. intros k. rewrite nth_at_axis. destruct (Nat.eqb_spec k dn) as [->|]; auto. apply within_nth in W as [Lw W]. destruct (nth_error idx dn) as [x|] eqn:Ex; auto.
    cbn. specialize (W dn 1 x En Ex). f_equal. lia.
  - destruct lit as [l|]; auto. destruct index as [ix|]; auto. destruct (HL l eq_refl) as [Hl Es]. specialize (HI ix eq_refl). cbv zeta. rewrite zlen_map.
    assert (Ed : (if d <? 0 then zlen ss + d else d) = Z.of_nat dn) by (assert (dn < length ss)%nat by (apply nth_error_Some; congruence); unfold zlen in *; destruct (Z.ltb_spec d 0); lia).
    rewrite Ed. assert (V : is_valid_dim (Z.of_nat dn) (zlen ss) = true) by (assert (dn < length ss)%nat by (apply nth_error_Some; congruence); unfold is_valid_dim, zlen; lia). rewrite V. cbn [negb].
    destruct (select_sizes _ _ _ _) eqn:S; cbn [negb]; auto. apply select_sizes_spec in S as [S1 S2]; [|now rewrite map_length, length_at_axis].
    rewrite HI. unfold read at 1. destruct (Z.ltb_spec (Z.of_nat dn) 0) as [|_]; [lia|]. rewrite Nat2Z.id, nth_error_map, En. cbn [option_map].
    replace (match n with 0 => i | _ => if i <? 0 then i + n else i end) with i' by (unfold i'; destruct n; auto; lia).
    assert (L : line ss dn n) by (split; auto; intros k m Em N; apply (S1 k m Em); lia).
    assert (Out : map (fun _ : option Z => 1) (map Some (at_axis dn (fun _ => rn) ss)) = at_axis dn (fun _ => rn) ss).
    { rewrite map_map. clear - S2. induction (at_axis dn (fun _ => rn) ss) as [|x r IH]; cbn in *; auto. inversion S2. subst. f_equal; [congruence|auto]. }
    assert (Rn : rn = 1). { rewrite Forall_forall in S2. assert (Q : nth_error (at_axis dn (fun _ => rn) ss) dn = Some rn) by (rewrite nth_at_axis, Nat.eqb_refl, En; reflexivity).
      apply nth_error_In in Q. apply (in_map Some) in Q. apply S2 in Q. congruence. }
    assert (Wi : forall idx, within (at_axis dn (fun _ => rn) ss) idx -> within ss (at_axis dn (fun _ => i') idx)) by (intros idx W; apply (within_axis ss dn n rn); auto).
    destruct Hl as (P & H & Sp). assert (Hl : literal_of l f) by (split; auto). destruct (splat_value l) as [x|] eqn:Sx.
    + rewrite Out. unfold splat_of. split; auto. apply holds_splat; [apply nonneg_axis; auto; lia|]. intros idx W. apply (splat_const _ _ _ _ Hl Sx). rewrite Es. auto.
    + rewrite Es in *. assert (Pos : forall idx, within (at_axis dn (fun _ => rn) ss) idx -> position ss (at_axis dn (fun _ => i') idx) = i').
      { assert (Z1 : forall s, (forall k m, nth_error s k = Some m -> m = 1) -> product s = 1) by (intros s Hs; now apply ones_indices).
        clear - L Z1. revert dn L. induction ss as [|m s IH]; intros [|dn] L idx W; try (destruct L as [L _]; discriminate); cbn [at_axis] in W; inversion W as [|? x ? xs Hx Hxs]; subst; cbn [at_axis position].
        - assert (O : forall k q, nth_error s k = Some q -> q = 1) by (intros k q E; apply (proj2 L (S k) q); auto). rewrite (Z1 s O).
          assert (Q : forall s j, (forall k m, nth_error s k = Some m -> m = 1) -> within s j -> position s j = 0).
          { clear. induction s as [|m s IH]; intros j H W; inversion W; subst; auto. cbn [position]. rewrite (IH l') by (auto; intros k q E; apply (H (S k)); auto). assert (m = 1) by (apply (H 0%nat); auto). replace y with 0 by lia. ring. }
          rewrite Q; auto. ring.
        - apply line_cons in L as [-> L]. replace x with 0 by lia. rewrite IH; auto. }
      assert (Z0 : within (at_axis dn (fun _ => rn) ss) (zeros ss)).
      { apply within_nth. split; [unfold zeros; now rewrite map_length, length_at_axis|]. intros k m x Em Ex. unfold zeros in Ex. rewrite nth_error_map in Ex. destruct (nth_error ss k); cbn in Ex; [|discriminate]. injection Ex as <-.
        rewrite Forall_forall in S2. apply nth_error_In in Em. apply (in_map Some) in Em. apply S2 in Em. injection Em as ->. lia. }
      assert (R : read (l_elements l) i' = Some (f (at_axis dn (fun _ => i') (zeros ss)))).
      { rewrite <- (Pos _ Z0) at 1. apply read_position; auto. }
      rewrite R, Out. unfold splat_of. split; auto. apply holds_splat; [apply nonneg_axis; auto; lia|]. intros idx W.
      assert (R' := read_position _ _ _ f _ P H (Wi _ W)). rewrite (Pos _ W), R in R'. congruence.
Qed.

(** * aten.where.self *)
Theorem C100_where_partial : forall A cond fc selfT otherT resultT (self other : option (literal A)), (forall c, cond = Some c -> literal_of c fc) ->
  match fold_where false cond selfT otherT resultT self other with
  | TNone | TBad => True
  | TError => False
  | TOperand k => exists c b, cond = Some c /\ (forall idx, within (l_sizes c) idx -> fc idx = b) /\ (if b then k = 1%nat /\ selfT = resultT else k = 2%nat /\ otherT = resultT)
  | TLit out vs => exists c b l x, cond = Some c /\ (forall idx, within (l_sizes c) idx -> fc idx = b) /\ (if b then self else other) = Some l /\ splat_value l = Some x /\
      known resultT = Some out /\ vs = repeat x (Z.to_nat (product out))
  end.
Proof.
  intros A cond fc selfT otherT resultT self other HC. unfold fold_where. destruct (t_dtype resultT); auto. destruct (t_sizes resultT) as [rs|] eqn:Er; auto.
  destruct cond as [c|]; cbn [obind]; auto. specialize (HC c eq_refl). destruct (splat_value c) as [b|] eqn:Sb; auto. assert (K := splat_const _ _ _ _ HC Sb). cbv zeta.
  match goal with |- context [if ?e then TOperand _ else _] => destruct e eqn:T end.
  - exists c, b. split; auto. split; auto. destruct (t_sizes (if b then selfT else otherT)); [|discriminate]. destruct (t_dtype (if b then selfT else otherT)); [|discriminate].
    apply type_eqb_spec in T. destruct b; auto.
  - destruct (if b then self else other) as [l|] eqn:El; cbn [obind]; auto. destruct (splat_value l) as [x|] eqn:Sx; auto. destruct (mapM (fun n => n) rs) as [out|] eqn:M; auto.
    unfold splat_of. exists c, b, l, x. repeat split; auto. unfold known. rewrite Er. exact M.
Qed.
(** Equal branches are returned although the condition may give the result more elements than they have. *)
Theorem C100_where_refuted : exists selfT resultT : tensor_type, known selfT = Some [] /\ known resultT = Some [3] /\
  fold_where (A := Z) true None selfT selfT resultT None None = TOperand 1%nat /\ selfT <> resultT.
Proof. exists {| t_sizes := Some []; t_dtype := Some 4 |}, {| t_sizes := Some [Some 3]; t_dtype := Some 4 |}. repeat split. discriminate. Qed.
Theorem C100_where_is_folded : forall A c (b : bool) selfT otherT resultT (self other : option (literal A)), splat_value c = Some b -> t_dtype resultT <> None -> known resultT <> None ->
  (if b then selfT else otherT) = resultT \/ (exists l x, (if b then self else other) = Some l /\ splat_value l = Some x) ->
  fold_where false (Some c) selfT otherT resultT self other <> TNone /\ fold_where false (Some c) selfT otherT resultT self other <> TBad.
Proof.
  intros A c b selfT otherT resultT self other Sb Dr Kr H. unfold fold_where. cbn [obind]. rewrite Sb. unfold known in Kr. destruct (t_dtype resultT) as [dt|] eqn:D; [|congruence].
  destruct (t_sizes resultT) as [rs|] eqn:Er; [|cbn in Kr; congruence]. cbn [obind] in Kr. cbv zeta.
  match goal with |- context [if ?e then TOperand _ else _] => destruct e eqn:T end; [split; discriminate|].
  destruct H as [Eq|(l & x & -> & Sx)].
  - rewrite Eq, Er, D in T. assert (type_eqb resultT resultT = true) by (now apply type_eqb_spec). congruence.
  - cbn [obind]. rewrite Sx. destruct (mapM _ rs); [|congruence]. split; discriminate.
Qed.

Example C100_nonvacuous :
  let lit := {| l_sizes := [2; 3]; l_splat := false; l_elements := [0; 1; 2; 3; 4; 5] |} in
  let t s := {| t_sizes := Some (map Some s); t_dtype := Some 4 |} in
  let v xs := {| c_type := t [zlen xs; 1]; c_literal := Some {| l_sizes := [zlen xs; 1]; l_splat := false; l_elements := xs |} |} in
  fold_transpose (Some lit) (Some 0) (Some (-1)) (t [2; 3]) (t [3; 2]) = TLit [3; 2] [0; 3; 1; 4; 2; 5] /\
  fold_cat (Some [v [7; 8]; v [9]]) (Some (-2)) (t [3; 1]) = TLit [3; 1] [7; 8; 9] /\
  rewrite_cat [t [0; 4]; t [2; 4]; t [0]] (Some 0) = Some (Some [1%nat]) /\
  fold_select (Some {| l_sizes := [1; 3]; l_splat := false; l_elements := [5; 6; 7] |}) (Some 1) (Some 2) (t [1]) = TLit [1] [7] /\
  fold_index_select (Some {| l_sizes := [1; 3]; l_splat := false; l_elements := [5; 6; 7] |}) (Some (-1)) (Some {| l_sizes := [1]; l_splat := true; l_elements := [-1] |}) (t [1; 3]) (t [1]) (t [1; 1]) = TLit [1; 1] [7].
Proof. cbv zeta. repeat split. Qed.
Print Assumptions C100_transpose.
Print Assumptions C100_transpose_is_folded.
Print Assumptions C100_cat_partial.
Print Assumptions C100_cat_refuted.
Print Assumptions C100_cat_answers.
Print Assumptions C100_cat_pattern.
Print Assumptions C100_cat_pattern_keeps_elements.
Print Assumptions C100_cat_pattern_refuted.
Print Assumptions C100_broadcast.
Print Assumptions C100_select_partial.
Print Assumptions C100_select_refuted.
Print Assumptions C100_select_is_folded.
Print Assumptions C100_index_select.
Print Assumptions C100_where_partial.
Print Assumptions C100_where_refuted.
Print Assumptions C100_where_is_folded.
