(** Proofs about the coordinates of triangles. *)
From Coq Require Import ZArith Bool Lia List.
From Verif Require Import Prelude ShapeMiscModel ShapeMiscSpec ShapeTriProps DecTriSpec DecTriModel.
Import ListNotations.
Open Scope Z_scope.

Lemma minus_floor : forall a d, 0 <= d -> is_floor (below_minus a d) (floor_minus_root a d).
Proof.
  intros a d D j. unfold floor_minus_root, below_minus.
  assert (S : Z.sqrt_up d <= a - 2 * j <-> 0 <= a - 2 * j /\ d <= (a - 2 * j) * (a - 2 * j)).
  { pose proof (Z.sqrt_up_nonneg d) as N. split.
    - intros L. split; [lia|]. apply Z.le_trans with (Z.sqrt_up d * Z.sqrt_up d).
      + destruct (Z.eq_dec d 0) as [->|]; [nia|]. pose proof (Z.sqrt_up_spec d ltac:(lia)). lia.
      + apply Z.mul_le_mono_nonneg; lia.
    - intros [P L]. rewrite <- (Z.sqrt_up_square (a - 2 * j)) by lia. apply Z.sqrt_up_le_mono. exact L. }
  rewrite <- S. clear S D. generalize (Z.sqrt_up d). intros s. split; intros H.
  - pose proof (Z.mul_div_le (a - s) 2 ltac:(lia)). lia.
  - apply Z.div_le_lower_bound; lia.
Qed.
Lemma plus_floor : forall a d, 0 <= d -> is_floor (below_plus a d) (floor_plus_root a d).
Proof.
  intros a d D j. unfold floor_plus_root, below_plus.
  assert (S : 2 * j - a <= Z.sqrt d <-> 2 * j - a <= 0 \/ (2 * j - a) * (2 * j - a) <= d).
  { pose proof (Z.sqrt_nonneg d) as N. pose proof (Z.sqrt_spec d D) as Q. cbv zeta in Q. split.
    - intros L. destruct (Z.le_gt_cases (2 * j - a) 0); [now left|right].
      apply Z.le_trans with (Z.sqrt d * Z.sqrt d); [|lia]. apply Z.mul_le_mono_nonneg; lia.
    - intros [L|L]; [lia|]. destruct (Z.le_gt_cases (2 * j - a) 0); [lia|].
      rewrite <- (Z.sqrt_square (2 * j - a)) by lia. apply Z.sqrt_le_mono. exact L. }
  rewrite <- S. clear S D. generalize (Z.sqrt d). intros s. split; intros H.
  - pose proof (Z.mul_div_le (a + s) 2 ltac:(lia)). lia.
  - apply Z.div_le_lower_bound; lia.
Qed.
Lemma floor_unique : forall P k l, is_floor P k -> is_floor P l -> k = l.
Proof.
  intros P k l K L. assert (k <= l) by (apply L, K; lia). assert (l <= k) by (apply K, L; lia). lia.
Qed.

(** ** Where the staircases start: rows of m, m - 1, ... cells, and rows of m, m + 1, ... cells. *)
Definition down (m r : Z) : Z := r * (2 * m + 1 - r) / 2.
Definition up (m r : Z) : Z := r * (2 * m - 1 + r) / 2.
Lemma down_twice : forall m r, 2 * down m r = r * (2 * m + 1 - r).
Proof. intros. unfold down. apply half. replace (r + (2 * m + 1 - r)) with (1 + m * 2) by ring. now rewrite Z.mod_add. Qed.
Lemma up_twice : forall m r, 2 * up m r = r * (2 * m - 1 + r).
Proof. intros. unfold up. apply half. replace (r + (2 * m - 1 + r)) with (1 + (m - 1 + r) * 2) by ring. now rewrite Z.mod_add. Qed.
Lemma down_step : forall m r, down m (r + 1) = down m r + (m - r).
Proof. intros. pose proof (down_twice m r). pose proof (down_twice m (r + 1)). nia. Qed.
Lemma up_step : forall m r, up m (r + 1) = up m r + (m + r).
Proof. intros. pose proof (up_twice m r). pose proof (up_twice m (r + 1)). nia. Qed.
Lemma down_nonneg : forall m r, 0 <= r <= m -> 0 <= down m r.
Proof. intros. pose proof (down_twice m r). nia. Qed.
Lemma up_nonneg : forall m r, 1 <= m -> 0 <= r -> 0 <= up m r.
Proof. intros. pose proof (up_twice m r). nia. Qed.

Lemma triu_row_at : forall m r x, 0 <= r < m -> down m r <= x < down m (r + 1) -> triu_row m x = r.
Proof.
  intros m r x R X. unfold triu_row. cbv zeta. pose proof (down_twice m r) as D1. pose proof (down_twice m (r + 1)) as D2.
  assert (P : 0 <= (-1 - 2 * m) * (-1 - 2 * m) - 8 * x) by nia.
  apply (floor_unique (below_minus (- (-1 - 2 * m)) ((-1 - 2 * m) * (-1 - 2 * m) - 8 * x))); [now apply minus_floor|].
  intros j. unfold below_minus. split.
  - intros J. split; [lia|]. assert (r * (2 * m + 1 - r) >= j * (2 * m + 1 - j)) by nia. nia.
  - intros [J1 J2]. destruct (Z.le_gt_cases j r); [auto|]. exfalso. assert (j <= m) by lia.
    assert (4 * (j * (2 * m + 1 - j)) <= 8 * x) by nia.
    assert ((r + 1) * (2 * m + 1 - (r + 1)) <= j * (2 * m + 1 - j)) by nia. lia.
Qed.
Lemma tril_row_at : forall m r x, 1 <= m -> 0 <= r -> up m r <= x < up m (r + 1) -> tril_row m x = r.
Proof.
  intros m r x M R X. unfold tril_row. cbv zeta. pose proof (up_twice m r) as D1. pose proof (up_twice m (r + 1)) as D2.
  assert (P : 0 <= (2 * m - 1) * (2 * m - 1) + 8 * x) by (pose proof (up_nonneg m r M R); nia).
  apply (floor_unique (below_plus (- (2 * m - 1)) ((2 * m - 1) * (2 * m - 1) + 8 * x))); [now apply plus_floor|].
  intros j. unfold below_plus. split.
  - intros J. destruct (Z.le_gt_cases (2 * j - - (2 * m - 1)) 0); [now left|right].
    assert (j * (2 * m - 1 + j) <= r * (2 * m - 1 + r)) by nia. nia.
  - intros [J|J]; [lia|]. destruct (Z.le_gt_cases j r); [auto|]. exfalso.
    assert (4 * (j * (2 * m - 1 + j)) <= 8 * x) by nia.
    assert ((r + 1) * (2 * m - 1 + (r + 1)) <= j * (2 * m - 1 + j)) by nia. lia.
Qed.
Lemma halved : forall a, 2 * a / 2 = a.
Proof. intros. rewrite Z.mul_comm. now apply Z.div_mul. Qed.
Lemma triu_col_at : forall m r x, triu_col m x r = x - down m r + r.
Proof.
  intros. unfold triu_col. pose proof (down_twice m r). replace (2 * x - (2 * m - 1 - r) * r) with (2 * (x - down m r + r)) by nia. apply halved.
Qed.
Lemma tril_col_at : forall m r x, tril_col m x r = x - up m r.
Proof.
  intros. unfold tril_col. pose proof (up_twice m r). replace (2 * x - (2 * m - 1 + r) * r) with (2 * (x - up m r)) by nia. apply halved.
Qed.

(** ** Ranges. *)
Lemma zrange_split : forall a b c, a <= b <= c -> zrange a c = zrange a b ++ zrange b c.
Proof.
  intros a b c [H1 H2]. replace c with (b + Z.of_nat (Z.to_nat (c - b))) by lia. clear H2. induction (Z.to_nat (c - b)) as [|n IH].
  - rewrite Z.add_0_r, (zrange_nil b b), app_nil_r by lia. reflexivity.
  - rewrite Nat2Z.inj_succ, <- Z.add_1_r, Z.add_assoc. rewrite !zrange_snoc by lia. rewrite IH, app_assoc. reflexivity.
Qed.
Lemma zrange_shift : forall a b k, zrange (a + k) (b + k) = map (fun x => x + k) (zrange a b).
Proof.
  intros. unfold zrange. replace (b + k - (a + k)) with (b - a) by ring. rewrite map_map. apply map_ext. intros. lia.
Qed.
Lemma zrange_from : forall a n, zrange a (a + n) = map (fun x => x + a) (zrange 0 n).
Proof. intros. rewrite <- zrange_shift. f_equal; ring. Qed.

(** Row after row, [first i] and [count i] giving the first column and the number of columns. *)
Definition rows_of (first count : Z -> Z) (a b : Z) : list (Z * Z) :=
  flat_map (fun i => map (fun j => (i, j + first i)) (zrange 0 (count i))) (zrange a b).
Lemma rows_split : forall f c a m b, a <= m <= b -> rows_of f c a b = rows_of f c a m ++ rows_of f c m b.
Proof. intros. unfold rows_of. rewrite (zrange_split a m b) by auto. apply flat_map_app. Qed.
Lemma rows_snoc : forall f c a b, a <= b -> rows_of f c a (b + 1) = rows_of f c a b ++ map (fun j => (b, j + f b)) (zrange 0 (c b)).
Proof. intros. unfold rows_of. rewrite zrange_snoc, flat_map_app by auto. cbn [flat_map]. now rewrite app_nil_r. Qed.
Lemma rows_none : forall f c a b, b <= a -> rows_of f c a b = [].
Proof. intros. unfold rows_of. now rewrite zrange_nil. Qed.
Lemma rows_empty : forall f c a b, (forall i, a <= i < b -> c i <= 0) -> rows_of f c a b = [].
Proof.
  intros f c a b H. unfold rows_of. assert (G : forall i, In i (zrange a b) -> c i <= 0) by (intros i I; apply H; now apply in_zrange).
  clear H. induction (zrange a b) as [|i l IH]; [reflexivity|]. cbn [flat_map]. rewrite zrange_nil by (apply G; now left).
  rewrite IH by (intros; apply G; now right). reflexivity.
Qed.
Lemma rows_ext : forall f c f' c' a b, (forall i, a <= i < b -> f i = f' i /\ c i = c' i) -> rows_of f c a b = rows_of f' c' a b.
Proof.
  intros f c f' c' a b H. unfold rows_of. assert (G : forall i, In i (zrange a b) -> f i = f' i /\ c i = c' i) by (intros i I; apply H; now apply in_zrange).
  clear H. induction (zrange a b) as [|i l IH]; [reflexivity|]. cbn [flat_map]. destruct (G i) as [-> ->]; [now left|].
  rewrite IH by (intros; apply G; now right). reflexivity.
Qed.

(** A rectangle, in one range. *)
Lemma rectangle : forall w a k, 0 <= k -> 0 < w ->
  rows_of (fun _ => 0) (fun _ => w) a (a + k) = map (fun x => (x / w + a, x mod w)) (zrange 0 (k * w)).
Proof.
  intros w a k K W. rewrite <- (Z2Nat.id k K). clear K. induction (Z.to_nat k) as [|n IH].
  - change (Z.of_nat 0) with 0. rewrite Z.add_0_r, rows_none by lia. rewrite zrange_nil by lia. reflexivity.
  - rewrite Nat2Z.inj_succ, <- Z.add_1_r, Z.add_assoc, rows_snoc, IH by lia.
    rewrite (zrange_split 0 (Z.of_nat n * w) ((Z.of_nat n + 1) * w)) by nia. rewrite map_app. f_equal.
    replace ((Z.of_nat n + 1) * w) with (Z.of_nat n * w + w) by ring. rewrite zrange_from, map_map.
    apply map_ext_in. intros j J. apply in_zrange in J. rewrite Z.div_add, Z.mod_add, Z.div_small, Z.mod_small by lia. f_equal; lia.
Qed.
(** The staircases, in one range. *)
Lemma staircase_down : forall m a o k, 0 <= k <= m ->
  rows_of (fun i => i - a + o) (fun i => m - (i - a)) a (a + k) =
  map (fun x => (triu_row m x + a, triu_col m x (triu_row m x) + o)) (zrange 0 (down m k)).
Proof.
  intros m a o k [K M]. revert M. rewrite <- (Z2Nat.id k K). clear K. induction (Z.to_nat k) as [|n IH]; intros M.
  - change (Z.of_nat 0) with 0. rewrite Z.add_0_r, rows_none by lia. rewrite zrange_nil by (unfold down; cbn; lia). reflexivity.
  - rewrite Nat2Z.inj_succ, <- Z.add_1_r in *. rewrite Z.add_assoc, rows_snoc, IH by lia. rewrite down_step.
    rewrite (zrange_split 0 (down m (Z.of_nat n)) (down m (Z.of_nat n) + (m - Z.of_nat n))) by (pose proof (down_nonneg m (Z.of_nat n)); lia). rewrite map_app. f_equal.
    replace (a + Z.of_nat n - a) with (Z.of_nat n) by ring. rewrite zrange_from, map_map. apply map_ext_in. intros j J. apply in_zrange in J.
    rewrite (triu_row_at m (Z.of_nat n)) by (rewrite ?down_step; lia). rewrite triu_col_at. f_equal; lia.
Qed.
Lemma staircase_up : forall m a k, 1 <= m -> 0 <= k ->
  rows_of (fun _ => 0) (fun i => m + (i - a)) a (a + k) =
  map (fun x => (tril_row m x + a, tril_col m x (tril_row m x))) (zrange 0 (up m k)).
Proof.
  intros m a k M K. rewrite <- (Z2Nat.id k K). clear K. induction (Z.to_nat k) as [|n IH].
  - change (Z.of_nat 0) with 0. rewrite Z.add_0_r, rows_none by lia. rewrite zrange_nil by (unfold up; cbn; lia). reflexivity.
  - rewrite Nat2Z.inj_succ, <- Z.add_1_r in *. rewrite Z.add_assoc, rows_snoc, IH by lia. rewrite up_step.
    rewrite (zrange_split 0 (up m (Z.of_nat n)) (up m (Z.of_nat n) + (m + Z.of_nat n))) by (pose proof (up_nonneg m (Z.of_nat n)); lia). rewrite map_app. f_equal.
    replace (a + Z.of_nat n - a) with (Z.of_nat n) by ring. rewrite zrange_from, map_map. apply map_ext_in. intros j J. apply in_zrange in J.
    rewrite (tril_row_at m (Z.of_nat n)) by (rewrite ?up_step; lia). rewrite tril_col_at. f_equal; lia.
Qed.

(** ** The triangles, row after row. *)
Lemma filter_row : forall (p : Z * Z -> bool) i lo n w, 0 <= lo -> 0 <= n -> lo + n <= Z.max w lo -> 
  (forall j, 0 <= j < w -> p (i, j) = true <-> lo <= j < lo + n) ->
  filter p (map (fun j => (i, j)) (zrange 0 w)) = map (fun j => (i, j + lo)) (zrange 0 n).
Proof.
  intros p i lo n w L N B H.
  assert (K : forall l, (forall j, In j l -> 0 <= j < w) -> (forall j, In j l -> ~ lo <= j < lo + n) -> filter p (map (fun j => (i, j)) l) = []).
  { induction l as [|j l IH]; intros A O; [reflexivity|]. cbn [map filter]. destruct (p (i, j)) eqn:E.
    - apply H in E; [|apply A; now left]. elim (O j); [now left|exact E].
    - apply IH; intros; [apply A|apply O]; now right. }
  assert (Y : forall l, (forall j, In j l -> 0 <= j < w) -> (forall j, In j l -> lo <= j < lo + n) -> filter p (map (fun j => (i, j)) l) = map (fun j => (i, j)) l).
  { induction l as [|j l IH]; intros A O; [reflexivity|]. cbn [map filter]. rewrite (proj2 (H j (A j (or_introl eq_refl)))) by (apply O; now left).
    f_equal. apply IH; intros; [apply A|apply O]; now right. }
  destruct (Z.le_gt_cases w lo) as [C|C].
  - assert (n = 0) by lia. subst n. rewrite (zrange_nil 0 0) by lia. apply K; intros j J; apply in_zrange in J; lia.
  - rewrite (zrange_split 0 lo w), (zrange_split lo (lo + n) w) by lia. rewrite !map_app, !filter_app.
    rewrite (K (zrange 0 lo)), (K (zrange (lo + n) w)) by (intros j J; apply in_zrange in J; lia).
    rewrite Y by (intros j J; apply in_zrange in J; lia). rewrite app_nil_r, zrange_from, map_map. reflexivity.
Qed.
Lemma filter_cells : forall p f c w h, 0 <= h ->
  (forall i, 0 <= i < h -> filter p (map (fun j => (i, j)) (zrange 0 w)) = map (fun j => (i, j + f i)) (zrange 0 (c i))) ->
  filter p (cells h w) = rows_of f c 0 h.
Proof.
  intros p f c w h H. rewrite <- (Z2Nat.id h H). clear H. induction (Z.to_nat h) as [|n IH]; intros R.
  - reflexivity.
  - rewrite Nat2Z.inj_succ, <- Z.add_1_r in *. rewrite cells_snoc, filter_app, rows_snoc by lia. rewrite IH by (intros; apply R; lia).
    rewrite R by lia. reflexivity.
Qed.
Lemma lower_rows : forall o h w, 0 <= h -> 0 <= w ->
  filter (lower o) (cells h w) = rows_of (fun _ => 0) (fun i => Z.max 0 (Z.min w (i + o + 1))) 0 h.
Proof.
  intros o h w H W. apply filter_cells; [auto|]. intros i I. apply filter_row; try lia.
  intros j J. unfold lower. cbn [fst snd]. lia.
Qed.
Lemma upper_rows : forall o h w, 0 <= h -> 0 <= w ->
  filter (upper o) (cells h w) = rows_of (fun i => Z.max 0 (i + o)) (fun i => Z.max 0 (w - Z.max 0 (i + o))) 0 h.
Proof.
  intros o h w H W. apply filter_cells; [auto|]. intros i I. apply filter_row; try lia.
  intros j J. unfold upper. cbn [fst snd]. lia.
Qed.

(** ** The sizes that the code computes. *)
Lemma even_quot : forall a b, a = 2 * b -> Z.quot a 2 = b.
Proof. intros a b ->. rewrite Z.mul_comm. apply Z.quot_mul. lia. Qed.
Lemma tril_sizes_at : forall h w o, 0 < h -> 0 < w -> 0 < h + o ->
  let f := if 0 <? o then Z.min w (1 + o) else 1 in let l := Z.min w (h + o) in let n := l - f + 1 in
  tril_sizes h w o = (up f n, (h - Z.max 0 (- o) - n) * w, f) /\ 1 <= f <= w /\ 1 <= n /\ n <= h - Z.max 0 (- o).
Proof.
  intros h w o H W P f l n.
  assert (F : 1 <= f <= w) by (unfold f; destruct (Z.ltb_spec 0 o); lia).
  assert (N : 1 <= n) by (unfold n, l, f; destruct (Z.ltb_spec 0 o); lia).
  assert (U : n <= h - Z.max 0 (- o)) by (unfold n, l, f; destruct (Z.ltb_spec 0 o); lia).
  split; [|auto]. unfold tril_sizes.
  destruct (Z.eqb_spec h 0); [lia|]. destruct (Z.eqb_spec w 0); [lia|]. cbn [orb]. cbv zeta. rewrite !Z.gtb_ltb.
  replace (if 0 <? o then if w <? o + 1 then w else o + 1 else if 0 <? h + o then 1 else 0) with f
    by (unfold f; destruct (Z.ltb_spec 0 o), (Z.ltb_spec w (o + 1)), (Z.ltb_spec 0 (h + o)); lia).
  replace (if w <? h + o then w else h + o) with l by (unfold l; destruct (Z.ltb_spec w (h + o)); lia).
  replace (if 0 <? l then l else 0) with l by (unfold l; destruct (Z.ltb_spec 0 (Z.min w (h + o))); lia).
  change (l - f + 1) with n.
  replace (if 0 <? (if h <? h + o then h else h + o) then (if h <? h + o then h else h + o) else 0) with (h - Z.max 0 (- o))
    by (destruct (Z.ltb_spec h (h + o)); [destruct (Z.ltb_spec 0 h)|destruct (Z.ltb_spec 0 (h + o))]; lia).
  apply f_equal2; [apply f_equal2|reflexivity].
  - apply even_quot. rewrite up_twice. unfold n. ring.
  - destruct (Z.ltb_spec 0 ((h - Z.max 0 (- o) - n) * w)) as [|G]; [reflexivity|]. nia.
Qed.
Lemma tril_sizes_empty : forall h w o, 0 < h -> 0 < w -> h + o <= 0 -> tril_sizes h w o = (0, 0, 0).
Proof.
  intros h w o H W P. unfold tril_sizes. destruct (Z.eqb_spec h 0); [lia|]. destruct (Z.eqb_spec w 0); [lia|]. cbn [orb]. cbv zeta. rewrite !Z.gtb_ltb.
  destruct (Z.ltb_spec 0 o); [lia|]. destruct (Z.ltb_spec 0 (h + o)); [lia|]. destruct (Z.ltb_spec w (h + o)); [lia|].
  destruct (Z.ltb_spec h (h + o)); [lia|]. destruct (Z.ltb_spec 0 (h + o)); [lia|]. change (0 - 0 + 1) with 1. change (Z.quot ((0 + 0) * 1) 2) with 0.
  destruct (Z.ltb_spec 0 ((0 - 1) * w)); [lia|reflexivity].
Qed.

Lemma coordinates_app : forall (A B : list (Z * Z)), coordinates (A ++ B) = [map fst A ++ map fst B; map snd A ++ map snd B].
Proof. intros. unfold coordinates. now rewrite !map_app. Qed.
Lemma cells_empty : forall p h w, h = 0 \/ w = 0 -> filter p (cells h w) = [].
Proof.
  intros p h w [->| ->]; [reflexivity|]. unfold cells. rewrite (zrange_nil 0 0) by lia.
  assert (E : list_prod (zrange 0 h) (@nil Z) = @nil (Z * Z)) by (induction (zrange 0 h); [reflexivity|cbn; auto]). now rewrite E.
Qed.

Lemma tril_proof : forall h w o, 0 <= h -> 0 <= w -> tril_rows_cols h w o = coordinates (positions (lower o) h w).
Proof.
  intros h w o H W. unfold positions. unfold tril_rows_cols.
  destruct (Z.eq_dec h 0) as [E|Nh]; [|destruct (Z.eq_dec w 0) as [E|Nw]].
  - rewrite (cells_empty _ _ _ (or_introl E)). unfold tril_sizes. subst. reflexivity.
  - rewrite (cells_empty _ _ _ (or_intror E)). unfold tril_sizes. subst. rewrite orb_true_r. reflexivity.
  - rewrite lower_rows by auto. destruct (Z.le_gt_cases (h + o) 0) as [C|C].
    + rewrite tril_sizes_empty by lia. rewrite rows_empty by (intros; lia). reflexivity.
    + pose proof (tril_sizes_at h w o ltac:(lia) ltac:(lia) ltac:(lia)) as Z. cbv zeta in Z.
      set (f := if 0 <? o then Z.min w (1 + o) else 1) in *. set (n := Z.min w (h + o) - f + 1) in *.
      destruct Z as (-> & F & N & U). replace (if - o >? 0 then - o else 0) with (Z.max 0 (- o)) by (rewrite Z.gtb_ltb; destruct (Z.ltb_spec 0 (- o)); lia).
      set (ro := Z.max 0 (- o)) in *. set (k := h - ro - n) in *.
      rewrite (rows_split _ _ 0 ro h) by lia. rewrite (rows_empty _ _ 0 ro) by (intros; lia). rewrite app_nil_l.
      rewrite (rows_split _ _ ro (ro + n) h) by lia.
      rewrite (rows_ext _ _ (fun _ => 0) (fun i => f + (i - ro)) ro (ro + n))
        by (intros i I; split; [reflexivity|]; unfold ro, n, f in *; destruct (Z.ltb_spec 0 o); lia).
      rewrite staircase_up by lia.
      rewrite (rows_ext _ _ (fun _ => 0) (fun _ => w) (ro + n) h)
        by (intros i I; split; [reflexivity|]; unfold ro, n, f in *; destruct (Z.ltb_spec 0 o); lia).
      assert (R : rows_of (fun _ => 0) (fun _ => w) (ro + n) h = map (fun x => (x / w + (w - f + 1 + ro), x mod w)) (zrange 0 (k * w))).
      { replace h with (ro + n + k) at 1 by (unfold k; ring). rewrite rectangle by lia. destruct (Z.eq_dec k 0) as [->|K0]; [reflexivity|].
        apply map_ext. intros x. f_equal. unfold k, ro, n, f in *. destruct (Z.ltb_spec 0 o); lia. }
      rewrite R, coordinates_app, !map_map. cbn [fst snd]. reflexivity.
Qed.
(** The trapezoid and the rectangle of the lower triangle are as large as the shape function says. *)
Lemma tril_total : forall h w o, 0 < h -> 0 < w -> let '(t, r, _) := tril_sizes h w o in t + r = zlen (filter (lower o) (cells h w)).
Proof.
  intros h w o H W. pose proof (tril_proof h w o ltac:(lia) ltac:(lia)) as P. unfold tril_rows_cols in P.
  assert (N : let '(t, r, _) := tril_sizes h w o in 0 <= t /\ 0 <= r).
  { destruct (Z.le_gt_cases (h + o) 0) as [C|C].
    - rewrite tril_sizes_empty by lia. lia.
    - pose proof (tril_sizes_at h w o ltac:(lia) ltac:(lia) ltac:(lia)) as Z. cbv zeta in Z. destruct Z as (-> & F & L & U).
      split; [apply up_nonneg; lia|]. apply Z.mul_nonneg_nonneg; lia. }
  destruct (tril_sizes h w o) as [[t r] m]. unfold coordinates, positions in P. injection P as P _.
  apply (f_equal zlen) in P. rewrite zlen_app in P. unfold zlen in P at 1 2 3. rewrite !map_length in P. unfold arange in P.
  change (Z.of_nat (length (zrange 0 t))) with (zlen (zrange 0 t)) in P. change (Z.of_nat (length (zrange 0 r))) with (zlen (zrange 0 r)) in P.
  rewrite !zlen_zrange in P. unfold zlen. lia.
Qed.
Lemma zlen_map' : forall A B (f : A -> B) l, zlen (map f l) = zlen l.
Proof. intros. unfold zlen. now rewrite map_length. Qed.

Lemma triu_proof : forall h w o, 0 <= h -> 0 <= w -> triu_rows_cols h w o = coordinates (positions (upper o) h w).
Proof.
  intros h w o H W. unfold positions. unfold triu_rows_cols.
  destruct (Z.eq_dec h 0) as [E|Nh]; [|destruct (Z.eq_dec w 0) as [E|Nw]].
  - rewrite (cells_empty _ _ _ (or_introl E)). unfold triu_sizes. subst. cbn [orb Z.eqb]. destruct (negb (w =? 0)); reflexivity.
  - rewrite (cells_empty _ _ _ (or_intror E)). unfold triu_sizes. subst. rewrite orb_true_r. reflexivity.
  - set (k := Z.max 0 (Z.min h (- o))). set (co := Z.max 0 o). set (m := Z.max 0 (w - co)). set (n := Z.max 0 (Z.min (h - k) m)).
    assert (L : filter (upper o) (cells h w) = map (fun x => (x / w, x mod w)) (zrange 0 (k * w)) ++
      map (fun x => (triu_row m x + k, triu_col m x (triu_row m x) + co)) (zrange 0 (down m n))).
    { rewrite upper_rows by auto. rewrite (rows_split _ _ 0 k h) by lia.
      rewrite (rows_ext _ _ (fun _ => 0) (fun _ => w) 0 k) by (intros; lia).
      replace k with (0 + k) at 1 by ring. rewrite rectangle by lia. f_equal; [apply map_ext; intros; f_equal; ring|].
      rewrite (rows_split _ _ k (k + n) h) by lia. rewrite (rows_empty _ _ (k + n) h) by (intros; lia). rewrite app_nil_r.
      rewrite (rows_ext _ _ (fun i => i - k + co) (fun i => m - (i - k)) k (k + n)) by (intros; lia).
      apply staircase_down. lia. }
    pose proof (tril_total h w (o - 1) ltac:(lia) ltac:(lia)) as T.
    assert (S : zlen (filter (lower (o - 1)) (cells h w)) + zlen (filter (upper o) (cells h w)) = h * w).
    { rewrite split_count, cells_length; auto. intros x. unfold upper, lower. lia. }
    assert (Dn : 0 <= down m n) by (apply down_nonneg; lia).
    assert (U : zlen (filter (upper o) (cells h w)) = k * w + down m n).
    { rewrite L, zlen_app, !zlen_map', !zlen_zrange. rewrite Z.sub_0_r. rewrite !Z.max_r by nia. ring. }
    assert (Q : triu_sizes h w o = (down m n, k * w, m)).
    { unfold triu_sizes. destruct (Z.eqb_spec h 0); [lia|]. destruct (Z.eqb_spec w 0); [lia|]. cbn [orb]. cbv zeta.
      destruct (tril_sizes h w (o - 1)) as [[t r] m0]. rewrite !Z.gtb_ltb.
      replace (if 0 <? o then if 0 <? w - o then w - o else 0 else w) with m
        by (unfold m, co; destruct (Z.ltb_spec 0 o), (Z.ltb_spec 0 (w - o)); lia).
      assert (K : (if 0 <? (if h <? - o then h else - o) * w then (if h <? - o then h else - o) * w else 0) = k * w).
      { replace (if h <? - o then h else - o) with (Z.min h (- o)) by (destruct (Z.ltb_spec h (- o)); lia).
        unfold k. destruct (Z.ltb_spec 0 (Z.min h (- o) * w)) as [G|G].
        - rewrite Z.max_r by nia. reflexivity.
        - rewrite Z.max_l by nia. lia. }
      rewrite K. f_equal. f_equal. lia. }
    rewrite Q. destruct (Z.eqb_spec w 0); [lia|]. cbn [negb]. rewrite L, coordinates_app, !map_map. cbn [fst snd].
    replace (if o >? 0 then o else 0) with co by (rewrite Z.gtb_ltb; unfold co; destruct (Z.ltb_spec 0 o); lia).
    rewrite Z.quot_mul by lia. reflexivity.
Qed.
Lemma triu_total : forall h w o, 0 <= h -> 0 <= w -> let '(t, r, _) := triu_sizes h w o in r + t = zlen (filter (upper o) (cells h w)).
Proof.
  intros h w o H W. unfold triu_sizes. destruct (Z.eqb_spec h 0) as [E|]; [rewrite (cells_empty _ _ _ (or_introl E)); reflexivity|].
  destruct (Z.eqb_spec w 0) as [E|]; [rewrite (cells_empty _ _ _ (or_intror E)); reflexivity|]. cbn [orb]. cbv zeta.
  pose proof (tril_total h w (o - 1) ltac:(lia) ltac:(lia)) as T. destruct (tril_sizes h w (o - 1)) as [[t r] m].
  assert (S : zlen (filter (lower (o - 1)) (cells h w)) + zlen (filter (upper o) (cells h w)) = h * w).
  { rewrite split_count, cells_length; auto. intros x. unfold upper, lower. lia. }
  lia.
Qed.
