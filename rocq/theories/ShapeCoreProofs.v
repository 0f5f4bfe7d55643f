(** Lemmas relating the loops of the shape functions to structural descriptions. *)
From Coq Require Import ZArith Bool Lia List Permutation.
From Verif Require Import Prelude ShapeCoreModel ShapeCoreSpec.
Import ListNotations.
Open Scope Z_scope.

(** ** Index loops *)
Lemma pyidx_nat : forall A (l : list A) k, pyidx l (Z.of_nat k) = nth_error l k.
Proof.
  intros. unfold pyidx. destruct (Z.ltb_spec (Z.of_nat k) 0); [lia|].
  destruct (Z.ltb_spec (Z.of_nat k) 0); [lia|]. now rewrite Nat2Z.id.
Qed.
Lemma pyidx_pos : forall A (l : list A) i, 0 <= i -> pyidx l i = nth_error l (Z.to_nat i).
Proof. intros. rewrite <- (pyidx_nat A l (Z.to_nat i)). f_equal. lia. Qed.
Lemma pyidx_neg : forall A (l : list A) i, i < 0 -> pyidx l i = if i + zlen l <? 0 then None else nth_error l (Z.to_nat (i + zlen l)).
Proof. intros. unfold pyidx. destruct (Z.ltb_spec i 0); [reflexivity|lia]. Qed.
Lemma nth_zrange : forall a b k, nth_error (zrange a b) k =
  if (k <? Z.to_nat (b - a))%nat then Some (a + Z.of_nat k) else None.
Proof.
  intros. unfold zrange. rewrite nth_error_map.
  destruct (Nat.ltb_spec k (Z.to_nat (b - a))).
  - rewrite (nth_error_nth' _ 0%nat) by (rewrite seq_length; lia). rewrite seq_nth by lia. simpl.
    f_equal.
  - replace (nth_error (seq 0 (Z.to_nat (b - a))) k) with (@None nat); [reflexivity|].
    symmetry. apply nth_error_None. rewrite seq_length. lia.
Qed.
Lemma zrange_length : forall a b, length (zrange a b) = Z.to_nat (b - a).
Proof. intros. unfold zrange. now rewrite map_length, seq_length. Qed.
Lemma mapM_nth : forall A B (f : A -> option B) l r, mapM f l = Some r <->
  length r = length l /\ forall i x, nth_error l i = Some x -> f x = nth_error r i.
Proof.
  intros A B f l. induction l as [|a l IH]; intros r; simpl.
  - split; [intros [= <-]; split; auto; intros [|i] x; discriminate|].
    intros [H _]. destruct r; [reflexivity|discriminate].
  - split.
    + destruct (f a) as [b|] eqn:E; [|discriminate]. simpl. destruct (mapM f l) as [bs|] eqn:E2; [|discriminate].
      simpl. intros [= <-]. destruct (proj1 (IH bs) eq_refl) as [L H]. split; [simpl; auto|].
      intros [|i] x; simpl; [intros [= <-]; auto|auto].
    + intros [L H]. destruct r as [|b bs]; [discriminate|]. pose proof (H 0%nat a eq_refl) as H0. simpl in H0.
      rewrite H0. simpl. destruct (IH bs) as [_ IH']. rewrite IH'; [reflexivity|].
      split; [simpl in L; lia|]. intros i x Hi. apply (H (S i) x Hi).
Qed.
Lemma mapM_range_nth : forall B (f : Z -> option B) n r, 0 <= n ->
  (mapM f (zrange 0 n) = Some r <->
   zlen r = n /\ forall k, (k < length r)%nat -> f (Z.of_nat k) = nth_error r k).
Proof.
  intros B f n r Hn. rewrite mapM_nth, zrange_length. unfold zlen. split; intros [L H]; (split; [lia|]).
  - intros k Hk. apply H. rewrite nth_zrange. destruct (Nat.ltb_spec k (Z.to_nat (n - 0))); [f_equal; lia|lia].
  - intros i x Hi. rewrite nth_zrange in Hi. destruct (Nat.ltb_spec i (Z.to_nat (n - 0))); [|discriminate].
    injection Hi as <-. rewrite <- H by lia. f_equal; lia.
Qed.
Lemma nth_error_firstn : forall A (l : list A) n k, (k < n)%nat -> nth_error (firstn n l) k = nth_error l k.
Proof. induction l; intros [|n] [|k] H; simpl; auto; try lia. apply IHl. lia. Qed.
Lemma nth_error_skipn : forall A n (l : list A) k, nth_error (skipn n l) k = nth_error l (n + k)%nat.
Proof. induction n; destruct l; intros; simpl; auto. now destruct k. Qed.
Lemma mapM_slice : forall A (l : list A) a b, 0 <= a <= b -> b <= zlen l ->
  mapM (pyidx l) (zrange a b) = Some (firstn (Z.to_nat (b - a)) (skipn (Z.to_nat a) l)).
Proof.
  intros A l a b Ha Hb. unfold zlen in Hb. apply mapM_nth. rewrite zrange_length. split.
  - rewrite firstn_length, skipn_length. lia.
  - intros i x Hi. rewrite nth_zrange in Hi. destruct (Nat.ltb_spec i (Z.to_nat (b - a))); [|discriminate].
    injection Hi as <-. rewrite nth_error_firstn, nth_error_skipn by auto. rewrite pyidx_pos by lia.
    f_equal. lia.
Qed.
Lemma unary_spec : forall s, unary s = Some s.
Proof.
  intros. unfold unary. rewrite mapM_slice by (pose proof (zlen_nonneg _ s); lia).
  unfold zlen. rewrite Z.sub_0_r, Nat2Z.id. simpl. now rewrite firstn_all.
Qed.

(** Loops over all axes that use the size and the position. *)
Fixpoint imap {A B} (f : nat -> A -> B) (k : nat) (l : list A) : list B :=
  match l with [] => [] | x :: r => f k x :: imap f (S k) r end.
Lemma imap_length : forall A B (f : nat -> A -> B) l k, length (imap f k l) = length l.
Proof. induction l; simpl; auto. Qed.
Lemma imap_nth : forall A B (f : nat -> A -> B) l k i,
  nth_error (imap f k l) i = option_map (f (k + i)%nat) (nth_error l i).
Proof.
  induction l; intros k [|i]; simpl; auto.
  - now rewrite Nat.add_0_r.
  - rewrite IHl. now rewrite Nat.add_succ_r.
Qed.
Lemma mapM_imap : forall A B (F : Z -> option B) (f : nat -> A -> B) s,
  (forall i x, nth_error s i = Some x -> F (Z.of_nat i) = Some (f i x)) ->
  mapM F (zrange 0 (zlen s)) = Some (imap f 0 s).
Proof.
  intros A B F f s H. apply mapM_range_nth; [apply zlen_nonneg|]. unfold zlen. rewrite imap_length. split; auto.
  intros k Hk. rewrite imap_nth. simpl. destruct (nth_error s k) as [x|] eqn:E.
  - now rewrite (H _ _ E).
  - apply nth_error_None in E. lia.
Qed.
Lemma collect_imap : forall (F : Z -> option (list Z)) (f : nat -> Z -> list Z) s,
  (forall i x, nth_error s i = Some x -> F (Z.of_nat i) = Some (f i x)) ->
  collect F (zrange 0 (zlen s)) = Some (concat (imap f 0 s)).
Proof. intros F f s H. unfold collect. erewrite mapM_imap by exact H. reflexivity. Qed.
Lemma concat_keep : forall (p : nat -> bool) s k,
  concat (imap (fun i (x : Z) => if p i then [x] else []) k s) = keep_axes_from k p s.
Proof. induction s; intros k; simpl; auto. destruct (p k); simpl; now rewrite IHs. Qed.
Lemma imap_id : forall A (s : list A) k, imap (fun _ x => x) k s = s.
Proof. induction s; intros; simpl; f_equal; auto. Qed.
Lemma concat_single : forall (g : nat -> Z -> Z) s k, concat (imap (fun i x => [g i x]) k s) = imap g k s.
Proof. induction s; intros; simpl; f_equal; auto. Qed.
Lemma imap_ext : forall A B (f g : nat -> A -> B) s k,
  (forall i x, nth_error s i = Some x -> f (k + i)%nat x = g (k + i)%nat x) -> imap f k s = imap g k s.
Proof.
  induction s; intros k H; simpl; auto. f_equal.
  - specialize (H 0%nat a eq_refl). rewrite Nat.add_0_r in H. auto.
  - apply IHs. intros i x Hi. specialize (H (S i) x Hi). rewrite Nat.add_succ_r in H. auto.
Qed.
Lemma keep_ext : forall p q s k, (forall i, (i < length s)%nat -> p (k + i)%nat = q (k + i)%nat) ->
  keep_axes_from k p s = keep_axes_from k q s.
Proof.
  induction s; intros k H; simpl; auto. rewrite (IHs (S k)).
  - specialize (H 0%nat). rewrite Nat.add_0_r in H. rewrite H by (simpl; lia). reflexivity.
  - intros i Hi. specialize (H (S i)). rewrite Nat.add_succ_r in H. simpl. apply H. simpl. lia.
Qed.
Lemma keep_all : forall s k, keep_axes_from k (fun _ => true) s = s.
Proof. induction s; intros; simpl; f_equal; auto. Qed.
Lemma keep_none : forall s k, keep_axes_from k (fun _ => false) s = [].
Proof. induction s; intros; simpl; auto. Qed.
Lemma keep_drop : forall s j k, (k < length s)%nat ->
  keep_axes_from j (fun i => negb (i =? j + k)%nat) s = drop_at k s.
Proof.
  induction s as [|x s IH]; intros j [|k] H; simpl in *; try lia.
  - rewrite Nat.add_0_r, Nat.eqb_refl. simpl. transitivity (keep_axes_from (S j) (fun _ => true) s); [|apply keep_all].
    apply keep_ext. intros i _. destruct (Nat.eqb_spec (S j + i) j); [lia|reflexivity].
  - destruct (Nat.eqb_spec j (j + S k)); [lia|]. simpl. unfold drop_at. simpl. f_equal.
    transitivity (keep_axes_from (S j) (fun i => negb (i =? S j + k)%nat) s); [|apply IH; lia].
    apply keep_ext. intros i _. do 2 f_equal. lia.
Qed.

(** ** Dimension wrapping *)
Lemma wrap_spec : forall d n k, wrap_dim d n = Some k <->
  let m := Z.max n 1 in - m <= d < m /\ k = if d <? 0 then d + m else d.
Proof.
  intros d n k. unfold wrap_dim. set (m := Z.max n 1).
  assert (E : (if n <=? 0 then 1 else n) = m) by (unfold m; destruct (Z.leb_spec n 0); lia).
  rewrite E. destruct (Z.ltb_spec d (- m)), (Z.ltb_spec (m - 1) d); simpl; split; intros H1; try discriminate; try lia.
  - injection H1 as <-. split; [lia|reflexivity].
  - destruct H1 as [_ ->]. reflexivity.
Qed.
Lemma wrap_denotes : forall d (s : list Z) k, s <> [] -> (wrap_dim d (zlen s) = Some k <->
  exists j, denotes (length s) d j /\ k = Z.of_nat j).
Proof.
  intros d s k Hs. rewrite wrap_spec. unfold denotes, zlen.
  assert (0 < length s)%nat by (destruct s; [congruence|simpl; lia]). cbv zeta.
  rewrite Z.max_l by lia. split.
  - intros [H1 ->]. destruct (Z.ltb_spec d 0).
    + exists (Z.to_nat (d + Z.of_nat (length s))). split; [split; [lia|right; lia]|lia].
    + exists (Z.to_nat d). split; [split; [lia|left; lia]|lia].
  - intros (j & [H1 [-> | ->]] & ->); (split; [lia|]).
    + destruct (Z.ltb_spec (Z.of_nat j) 0); lia.
    + destruct (Z.ltb_spec (Z.of_nat j - Z.of_nat (length s)) 0); lia.
Qed.
Lemma wrap_nonneg : forall d n k, wrap_dim d n = Some k -> 0 <= k < Z.max n 1.
Proof. intros d n k H. apply wrap_spec in H. cbv zeta in H. destruct H as [H ->]. destruct (Z.ltb_spec d 0); lia. Qed.
Lemma denotes_inj : forall r d j k, denotes r d j -> denotes r d k -> j = k.
Proof. unfold denotes. intros; lia. Qed.

(** ** Broadcasting *)
Lemma rdim_nth : forall s k, (k < length s)%nat -> nth_error s (length s - 1 - k) = Some (rdim s k).
Proof.
  intros s k H. unfold rdim. rewrite rev_nth by auto. rewrite (nth_error_nth' _ 1) by lia. do 2 f_equal. lia.
Qed.
Lemma rdim_out : forall s k, (length s <= k)%nat -> rdim s k = 1.
Proof. intros. unfold rdim. apply nth_overflow. now rewrite rev_length. Qed.
Lemma size_rdim : forall s k, size_or_one s (zlen s - 1 - Z.of_nat k) = Some (rdim s k).
Proof.
  intros s k. unfold size_or_one, zlen. destruct (Z.leb_spec 0 (Z.of_nat (length s) - 1 - Z.of_nat k)).
  - rewrite pyidx_pos by lia. rewrite <- rdim_nth by lia. f_equal. lia.
  - rewrite rdim_out by lia. reflexivity.
Qed.
Lemma list_rdim_ext : forall a b, length a = length b ->
  (forall k, (k < length a)%nat -> rdim a k = rdim b k) -> a = b.
Proof.
  intros a b L H. rewrite <- (rev_involutive a), <- (rev_involutive b). f_equal.
  apply nth_ext with (d := 1) (d' := 1); rewrite ?rev_length; auto.
Qed.
Definition bc1 (x y : Z) : option Z :=
  if negb (x =? y) && negb (x =? 1) && negb (y =? 1) then None else Some (if x =? 1 then y else x).
Lemma bc1_spec : forall x y z, bc1 x y = Some z <-> bcast1 x y z.
Proof.
  intros x y z. unfold bc1, bcast1. destruct (Z.eqb_spec x y), (Z.eqb_spec x 1), (Z.eqb_spec y 1); simpl;
  split; intros H; try (injection H as <-); try discriminate; try lia; f_equal; lia.
Qed.
Lemma broadcast_nth : forall a b c, broadcast a b = Some c <->
  length c = Nat.max (length a) (length b) /\
  forall k, (k < length c)%nat -> bc1 (rdim a k) (rdim b k) = Some (rdim c k).
Proof.
  intros a b c. unfold broadcast. rewrite mapM_range_nth by (unfold zlen; lia).
  set (n := Z.max (zlen a) (zlen b)).
  assert (F : forall i, 0 <= i < n -> (let off := n - 1 - i in
     do x <- size_or_one a (zlen a - 1 - off);
     do y <- size_or_one b (zlen b - 1 - off);
     if negb (x =? y) && negb (x =? 1) && negb (y =? 1) then None else Some (if x =? 1 then y else x))
     = bc1 (rdim a (Z.to_nat (n - 1 - i))) (rdim b (Z.to_nat (n - 1 - i)))).
  { intros i Hi. cbv zeta. pose (k := Z.to_nat (n - 1 - i)).
    replace (zlen a - 1 - (n - 1 - i)) with (zlen a - 1 - Z.of_nat k) by lia.
    replace (zlen b - 1 - (n - 1 - i)) with (zlen b - 1 - Z.of_nat k) by lia.
    rewrite !size_rdim. reflexivity. }
  assert (Hn : n = Z.of_nat (Nat.max (length a) (length b))) by (unfold n, zlen; lia).
  clearbody n. unfold zlen at 1. split; intros [L H]; (split; [lia|]); intros k Hk.
  - specialize (H (length c - 1 - k)%nat ltac:(lia)). rewrite rdim_nth in H by lia. rewrite <- H.
    cbv zeta in F. rewrite F by lia. do 2 f_equal; lia.
  - specialize (H (length c - 1 - k)%nat ltac:(lia)). rewrite <- rdim_nth in H by lia.
    replace (length c - 1 - (length c - 1 - k))%nat with k in H by lia. rewrite <- H.
    cbv zeta in F. cbv zeta. rewrite F by lia. do 2 f_equal; lia.
Qed.
