(** Proofs about DecReshapeModel.v. *)
From Coq Require Import ZArith List Lia Bool Permutation.
From Verif Require Import Prelude TensorOps DecMoveModel DecMoveProofs DecReshapeModel DecReshapeSpec.
Import ListNotations.
Open Scope Z_scope.

(** * Indices with a prefix *)
Lemma within_app : forall a b i, within (a ++ b) i <-> exists ia ib, i = ia ++ ib /\ within a ia /\ within b ib.
Proof.
  unfold within. split.
  - intros H. apply Forall2_app_inv_l in H. destruct H as (ia & ib & Ha & Hb & ->). exists ia, ib. auto.
  - intros (ia & ib & -> & Ha & Hb). now apply Forall2_app.
Qed.
Lemma within_cons : forall n s i, within (n :: s) i <-> exists x r, i = x :: r /\ 0 <= x < n /\ within s r.
Proof. unfold within. split; [intros H; inversion H; subst; eauto|intros (x & r & -> & X & R); constructor; auto]. Qed.
Lemma within_nil : forall i, within [] i <-> i = [].
Proof. unfold within. split; [intros H; now inversion H|intros ->; constructor]. Qed.
Lemma get_app_left : forall a b k, (k < length a)%nat -> get (a ++ b) k = get a k.
Proof. intros. unfold get. now apply app_nth1. Qed.
Lemma get_app_right : forall a b k, get (a ++ b) (length a + k) = get b k.
Proof. intros. unfold get. rewrite app_nth2 by lia. f_equal. lia. Qed.
Lemma get_prefix : forall p q n x, length p = n -> get (p ++ x :: q) n = x.
Proof. intros p q n x <-. rewrite <- (Nat.add_0_r (length p)), get_app_right. reflexivity. Qed.
Lemma put_prefix : forall p q n x y, length p = n -> put (p ++ x :: q) n y = p ++ y :: q.
Proof. intros p q n x y <-. induction p; cbn [app length put]; [reflexivity|now f_equal]. Qed.
Lemma insert_prefix : forall B (p q : list B) n y, length p = n -> insert n y (p ++ q) = p ++ y :: q.
Proof. intros B p q n y <-. induction p; cbn [app length insert]; [destruct q; reflexivity|now f_equal]. Qed.
Lemma remove_prefix : forall B (p q : list B) n x, length p = n -> remove n (p ++ x :: q) = p ++ q.
Proof. intros B p q n x <-. induction p; cbn [app length remove]; [reflexivity|now f_equal]. Qed.
Lemma firstn_prefix : forall B (p q : list B) n, length p = n -> firstn n (p ++ q) = p.
Proof. intros B p q n <-. rewrite firstn_app, Nat.sub_diag, firstn_all. cbn [firstn]. apply app_nil_r. Qed.
Lemma skipn_prefix : forall B (p q : list B) n, length p = n -> skipn n (p ++ q) = q.
Proof. intros B p q n <-. rewrite skipn_app, Nat.sub_diag, skipn_all. reflexivity. Qed.
Lemma zlen_nat : forall B (l : list B), Z.to_nat (zlen l) = length l.
Proof. intros. unfold zlen. lia. Qed.

(** * Row-major positions *)
Lemma ravel_bounds : forall s ix, within s ix -> 0 <= ravel s ix < prodZ s.
Proof.
  intros s ix W. induction W as [|n i s ix Hi W IH]; cbn [ravel]; [cbn; lia|].
  change (prodZ (n :: s)) with (n * prodZ s). nia.
Qed.
Lemma unravel_ravel : forall s ix, within s ix -> unravel s (ravel s ix) = ix.
Proof.
  intros s ix W. induction W as [|n i s ix Hi W IH]; cbn [ravel unravel]; [reflexivity|].
  pose proof (ravel_bounds s ix W) as B. rewrite Z.add_comm, Z.div_add, Z.mod_add, Z.div_small, Z.mod_small by lia. rewrite IH. reflexivity.
Qed.
Lemma ravel_app : forall a ia b ib, length a = length ia -> ravel (a ++ b) (ia ++ ib) = ravel a ia * prodZ b + ravel b ib.
Proof.
  induction a as [|n a IH]; intros [|i ia] b ib L; cbn [length] in L; try lia; cbn [app ravel]; [reflexivity|].
  rewrite IH by lia. rewrite prodZ_app. ring.
Qed.
Lemma unravel_within : forall s p, Forall (fun n => 0 <= n) s -> 0 <= p < prodZ s -> within s (unravel s p) /\ ravel s (unravel s p) = p.
Proof.
  induction s as [|n s IH]; intros p F H; cbn [unravel ravel].
  - cbn in H. split; [constructor|lia].
  - inversion_clear F as [|? ? N Fs]. change (prodZ (n :: s)) with (n * prodZ s) in H. pose proof (prodZ_nonneg s Fs) as Ps. assert (P : 0 < prodZ s) by nia.
    pose proof (Z.mod_pos_bound p (prodZ s) P) as M. pose proof (Z.div_mod p (prodZ s) ltac:(lia)) as E. destruct (IH (p mod prodZ s) Fs M) as [W R]. split.
    + constructor; [|exact W]. generalize dependent (p / prodZ s). generalize dependent (p mod prodZ s). intros. nia.
    + rewrite R. generalize dependent (p / prodZ s). generalize dependent (p mod prodZ s). intros. nia.
Qed.
Lemma within_prod : forall s ix, within s ix -> 0 < prodZ s.
Proof. intros s ix W. pose proof (ravel_bounds s ix W). lia. Qed.
Lemma view_middle : forall a m m' b ia im ib, Forall (fun n => 0 <= n) m -> prodZ m = prodZ m' -> within a ia -> within m' im -> within b ib ->
  unravel (a ++ m ++ b) (ravel (a ++ m' ++ b) (ia ++ im ++ ib)) = ia ++ unravel m (ravel m' im) ++ ib.
Proof.
  intros a m m' b ia im ib F P Wa Wm Wb. pose proof (ravel_bounds m' im Wm) as B. destruct (unravel_within m (ravel m' im) F ltac:(lia)) as [Wj Rj].
  transitivity (unravel (a ++ m ++ b) (ravel (a ++ m ++ b) (ia ++ unravel m (ravel m' im) ++ ib))).
  - f_equal. rewrite !ravel_app by (apply within_length in Wa, Wm, Wj; congruence). rewrite Rj, !prodZ_app, P. reflexivity.
  - apply unravel_ravel. apply within_app. do 2 eexists. split; [reflexivity|]. split; [exact Wa|]. apply within_app. eauto.
Qed.

(** * flatten and unflatten *)
Lemma infer_one : forall a b n, Forall (fun x => 0 <= x) a -> Forall (fun x => 0 <= x) b -> prodZ a * prodZ b <> 0 -> infer (prodZ a * n * prodZ b) (a ++ [-1] ++ b) = Some (a ++ [n] ++ b).
Proof.
  intros a b n Fa Fb P.
  assert (K : forall l, Forall (fun x => 0 <= x) l -> filter (fun x => negb (x =? -1)) l = l /\ filter (fun x => x =? -1) l = [] /\ forall q, map (fun x => if x =? -1 then q else x) l = l).
  { induction 1 as [|x l X F IH]; [auto|]. destruct IH as (I1 & I2 & I3). cbn [filter map]. destruct (Z.eqb_spec x (-1)); [lia|]. cbn [negb]. rewrite I1, I2. split; [reflexivity|]. split; [reflexivity|]. intros q. now rewrite I3. }
  destruct (K a Fa) as (A1 & A2 & A3). destruct (K b Fb) as (B1 & B2 & B3). unfold infer. rewrite !filter_app. cbn [filter app]. change (-1 =? -1) with true. cbn [negb app]. rewrite A1, A2, B1, B2. cbn [app].
  assert (X : existsb (fun x => x <? 0) (a ++ b) = false).
  { apply not_true_is_false. intros H. apply existsb_exists in H. destruct H as (x & Ix & Hx). apply Z.ltb_lt in Hx. apply in_app_or in Ix. rewrite Forall_forall in Fa, Fb. destruct Ix as [Ix|Ix]; [apply Fa in Ix|apply Fb in Ix]; lia. }
  rewrite X. cbn [length]. rewrite prodZ_app. replace (prodZ a * n * prodZ b) with (n * (prodZ a * prodZ b)) by ring. rewrite Z.mod_mul, Z.div_mul by exact P.
  destruct (Z.eqb_spec (prodZ a * prodZ b) 0); [contradiction|]. cbn [orb negb]. change (0 =? 0) with true. cbn [negb]. rewrite map_app. cbn [map app]. change (-1 =? -1) with true. cbn match. rewrite A3, B3. reflexivity.
Qed.
Lemma infer_zero : forall a b n, Forall (fun x => 0 <= x) a -> Forall (fun x => 0 <= x) b -> prodZ a * prodZ b = 0 -> infer n (a ++ [-1] ++ b) = None.
Proof.
  intros a b n Fa Fb P.
  assert (K : forall l, Forall (fun x => 0 <= x) l -> filter (fun x => negb (x =? -1)) l = l /\ filter (fun x => x =? -1) l = []).
  { induction 1 as [|x l X F IH]; [auto|]. destruct IH as (I1 & I2). cbn [filter map]. destruct (Z.eqb_spec x (-1)); [lia|]. cbn [negb]. rewrite I1, I2. auto. }
  destruct (K a Fa) as (A1 & A2). destruct (K b Fb) as (B1 & B2). unfold infer. rewrite !filter_app. cbn [filter app]. change (-1 =? -1) with true. cbn [negb app]. rewrite A1, A2, B1, B2. cbn [app].
  destruct (existsb _ _); [reflexivity|]. cbn [length]. rewrite prodZ_app, P. reflexivity.
Qed.
Lemma size_int_nat : forall A (t : tensor A) k, (k < length (sizes t))%nat -> size_int t (Z.of_nat k) = Some (get (sizes t) k).
Proof. intros A t k H. unfold size_int, rank, zlen. rewrite axis_nat by lia. reflexivity. Qed.
Lemma mapM_sizes : forall A (t : tensor A) n k, (k + n <= length (sizes t))%nat -> mapM (size_int t) (map (fun i => Z.of_nat k + Z.of_nat i) (seq 0 n)) = Some (firstn n (skipn k (sizes t))).
Proof.
  intros A t n. induction n as [|n IH]; intros k H; [reflexivity|]. cbn [seq map mapM]. rewrite <- seq_shift, map_map.
  replace (Z.of_nat k + Z.of_nat 0) with (Z.of_nat k) by lia. rewrite size_int_nat by lia. cbn [obind].
  rewrite (map_ext _ (fun i => Z.of_nat (S k) + Z.of_nat i)) by (intros; lia). rewrite IH by lia. cbn [obind].
  assert (E : skipn k (sizes t) = get (sizes t) k :: skipn (S k) (sizes t)).
  { revert k H. clear. induction (sizes t) as [|x l IH]; intros k H; cbn [length] in *; [lia|]. destruct k as [|k]; [reflexivity|]. cbn [skipn]. rewrite IH by lia. reflexivity. }
  rewrite E. reflexivity.
Qed.
Lemma range_sizes : forall A (t : tensor A) a b, (a <= b)%nat -> (b <= length (sizes t))%nat -> mapM (size_int t) (range (Z.of_nat a) (Z.of_nat b)) = Some (firstn (b - a) (skipn a (sizes t))).
Proof. intros A t a b H1 H2. unfold range. replace (Z.to_nat (Z.of_nat b - Z.of_nat a)) with (b - a)%nat by lia. apply mapM_sizes. lia. Qed.
Lemma skipn_twice : forall B (l : list B) a b, skipn a (skipn b l) = skipn (b + a) l.
Proof. intros B l a b. revert l. induction b as [|b IH]; intros l; [reflexivity|]. destruct l as [|x l]; cbn [skipn Nat.add]; [now destruct a|apply IH]. Qed.
Lemma split3 : forall B (l : list B) a b, (a <= b)%nat -> (b < length l)%nat -> l = firstn a l ++ firstn (S b - a) (skipn a l) ++ skipn (S b) l.
Proof.
  intros B l a b H L. rewrite <- (firstn_skipn a l) at 1. f_equal. rewrite <- (firstn_skipn (S b - a) (skipn a l)) at 1. f_equal. rewrite skipn_twice. f_equal. lia.
Qed.
Lemma axis_to_positive : forall r d k, axis r d = Some k -> to_positive_dim d r = Z.of_nat k.
Proof.
  intros r d k H. unfold axis in H. destruct (Z.leb_spec (- r) d); [|discriminate]. destruct (Z.ltb_spec d r); [|discriminate]. cbn [andb] in H. injection H as <-. unfold to_positive_dim. destruct (Z.geb_spec d 0), (Z.ltb_spec d 0); lia.
Qed.
(** What is outside of the flattened axes. *)
Definition outside {A} (t : tensor A) (start stop : Z) : Z := match axis (rank t) start, axis (rank t) stop with Some a, Some b => prodZ (firstn a (sizes t)) * prodZ (skipn (S b) (sizes t)) | _, _ => 1 end.
Lemma Forall_firstn : forall B (P : B -> Prop) n l, Forall P l -> Forall P (firstn n l).
Proof. intros B P n. induction n as [|n IH]; intros l F; [constructor|]. destruct F; cbn [firstn]; constructor; auto. Qed.
Lemma Forall_skipn : forall B (P : B -> Prop) n l, Forall P l -> Forall P (skipn n l).
Proof. intros B P n. induction n as [|n IH]; intros l F; [exact F|]. destruct F; cbn [skipn]; auto. Qed.
Lemma flatten_view : forall A (t : tensor A) a b, sized t -> (a <= b)%nat -> (b < length (sizes t))%nat ->
  let w := firstn a (sizes t) ++ [-1] ++ skipn (S b) (sizes t) in
  if prodZ (firstn a (sizes t)) * prodZ (skipn (S b) (sizes t)) =? 0 then view t w = None
  else exists v, view t w = Some v /\ same v (reindex (merge_sizes a b (sizes t)) (spread a b (sizes t)) t).
Proof.
  intros A t a b Zt H L w. pose proof (split3 Z (sizes t) a b H L) as E3. unfold sized in Zt.
  pose proof (Forall_firstn Z _ a _ Zt) as Fa. pose proof (Forall_skipn Z _ (S b) _ Zt) as Fb. pose proof (Forall_firstn Z _ (S b - a) _ (Forall_skipn Z _ a _ Zt)) as Fm.
  unfold merge_sizes, spread. assert (La : length (firstn a (sizes t)) = a) by (rewrite firstn_length; lia). assert (Lb : length (firstn (S b - a) (skipn a (sizes t))) = (S b - a)%nat) by (rewrite firstn_length, skipn_length; lia).
  unfold view. subst w. destruct (Z.eqb_spec (prodZ (firstn a (sizes t)) * prodZ (skipn (S b) (sizes t))) 0) as [E|N].
  - rewrite infer_zero by auto. reflexivity.
  - assert (Ep : prodZ (sizes t) = prodZ (firstn a (sizes t)) * prodZ (firstn (S b - a) (skipn a (sizes t))) * prodZ (skipn (S b) (sizes t))) by (transitivity (prodZ (firstn a (sizes t) ++ firstn (S b - a) (skipn a (sizes t)) ++ skipn (S b) (sizes t))); [now rewrite <- E3|rewrite !prodZ_app; ring]).
    rewrite Ep, infer_one by auto. cbn [obind]. eexists. split; [reflexivity|].
    split; [reflexivity|]. cbn [sizes reindex elt]. intros ix W. f_equal.
    apply within_app in W. destruct W as (ia & r & -> & Wa & W). apply within_app in W. destruct W as (im & ib & -> & Wm & Wb).
    apply within_cons in Wm. destruct Wm as (x & r & -> & X & Wr). apply within_nil in Wr. subst r. pose proof (within_length _ _ Wa) as Li.
    transitivity (unravel (firstn a (sizes t) ++ firstn (S b - a) (skipn a (sizes t)) ++ skipn (S b) (sizes t)) (ravel (firstn a (sizes t) ++ [prodZ (firstn (S b - a) (skipn a (sizes t)))] ++ skipn (S b) (sizes t)) (ia ++ [x] ++ ib))); [now rewrite <- E3|]. rewrite view_middle; auto; [|cbn; lia|constructor; [exact X|constructor]]. rewrite firstn_prefix by lia. cbn [app]. rewrite get_prefix by lia.
    cbn [ravel]. change (prodZ []) with 1. replace (x * 1 + 0) with x by lia. do 2 f_equal. change (ia ++ x :: ib) with (ia ++ [x] ++ ib). rewrite app_assoc. rewrite skipn_prefix; [reflexivity|]. rewrite app_length. cbn [length]. lia.
Qed.
Lemma flatten_proof : forall A (t u : tensor A) start stop, sized t -> flatten t start stop = Some u ->
  if outside t start stop =? 0 then dec_flatten t start stop = Becomes None else exists v, dec_flatten t start stop = Becomes (Some v) /\ same v u.
Proof.
  intros A t u start stop Zt H. destruct (sizes t) as [|n s] eqn:Es.
  - unfold flatten in H. rewrite Es in H. unfold outside, dec_flatten, rank. rewrite Es. change (zlen []) with 0. cbn [Z.eqb].
    assert (Ax : forall d, axis 0 d = None). { intros d. unfold axis. destruct (Z.leb_spec (-0) d), (Z.ltb_spec d 0); try reflexivity; lia. }
    rewrite Ax. destruct ((-1 <=? start) && (start <=? 0) && (-1 <=? stop) && (stop <=? 0)); [|discriminate]. injection H as <-. unfold view. rewrite Es. cbn. eexists. split; [reflexivity|]. split; [reflexivity|]. intros ix _. cbn [elt reindex unravel]. reflexivity.
  - assert (Hf : (do a <- axis (rank t) start; do b <- axis (rank t) stop; if Nat.leb a b then Some (reindex (merge_sizes a b (sizes t)) (spread a b (sizes t)) t) else None) = Some u).
    { unfold flatten in H. rewrite Es in H at 1. exact H. }
    clear H. unfold outside, dec_flatten. destruct (axis (rank t) start) as [a|] eqn:Aa; [|discriminate]. cbn [obind] in Hf. destruct (axis (rank t) stop) as [b|] eqn:Ab; [|discriminate]. cbn [obind] in Hf.
    destruct (Nat.leb_spec a b) as [Hab|]; [|discriminate]. injection Hf as <-.
    assert (R : rank t = Z.of_nat (length (sizes t))) by reflexivity. pose proof (axis_rank _ _ _ _ Aa) as La. pose proof (axis_rank _ _ _ _ Ab) as Lb.
    rewrite (axis_to_positive _ _ _ Aa), (axis_to_positive _ _ _ Ab). destruct (Z.eqb_spec (rank t) 0); [lia|]. destruct (Z.gtb_spec (Z.of_nat a) (Z.of_nat b)); [lia|].
    assert (R0 := range_sizes A t 0 a ltac:(lia) ltac:(lia)). change (Z.of_nat 0) with 0 in R0. rewrite R0. replace (Z.of_nat b + 1) with (Z.of_nat (S b)) by lia. rewrite R, range_sizes by lia. cbn [obind]. change (skipn 0 (sizes t)) with (sizes t). rewrite Nat.sub_0_r.
    rewrite (firstn_all2 (skipn (S b) (sizes t))) by (rewrite skipn_length; lia).
    pose proof (flatten_view A t a b Zt Hab Lb) as V. cbv zeta in V. destruct (Z.eqb_spec (prodZ (firstn a (sizes t)) * prodZ (skipn (S b) (sizes t))) 0) as [E0|N0].
    + cbn [app] in *. now rewrite V.
    + destruct V as (v & E & S). exists v. cbn [app] in *. rewrite E. auto.
Qed.

Definition minus_free (l : list Z) : Prop := filter (fun x => negb (x =? -1)) l = l.
Lemma infer_cases : forall n ss r, infer n ss = Some r ->
  (Forall (fun s => 0 <= s) ss /\ prodZ ss = n /\ r = ss) \/
  (exists p q, ss = p ++ -1 :: q /\ Forall (fun s => 0 <= s) p /\ Forall (fun s => 0 <= s) q /\ prodZ p * prodZ q <> 0 /\ n = prodZ p * prodZ q * (n / (prodZ p * prodZ q)) /\ r = p ++ n / (prodZ p * prodZ q) :: q).
Proof.
  intros n ss r H. unfold infer in H. destruct (existsb _ _) eqn:Ex; [discriminate|].
  assert (G : Forall (fun s => s = -1 \/ 0 <= s) ss).
  { apply Forall_forall. intros s Is. destruct (Z.eqb_spec s (-1)); [auto|]. right. destruct (Z.ltb_spec s 0); [|lia]. exfalso. assert (T : existsb (fun x => x <? 0) (filter (fun x => negb (x =? -1)) ss) = true); [|congruence].
    apply existsb_exists. exists s. split; [|now apply Z.ltb_lt]. apply filter_In. split; [exact Is|]. destruct (Z.eqb_spec s (-1)); [contradiction|reflexivity]. }
  assert (None_ : forall l, Forall (fun s => s = -1 \/ 0 <= s) l -> length (filter (fun x => x =? -1) l) = O -> Forall (fun s => 0 <= s) l /\ filter (fun x => negb (x =? -1)) l = l /\ forall v, map (fun x => if x =? -1 then v else x) l = l).
  { induction 1 as [|x l X F IH]; [auto|]. cbn [filter]. destruct (Z.eqb_spec x (-1)); cbn [length]; [discriminate|]. intros Ln. destruct (IH Ln) as (I1 & I2 & I3). cbn [negb map]. rewrite I2. split; [constructor; [lia|exact I1]|]. split; [reflexivity|]. intros v. destruct (Z.eqb_spec x (-1)); [contradiction|]. now rewrite I3. }
  destruct (length (filter (fun x => x =? -1) ss)) as [|[|]] eqn:L; [| |discriminate].
  - left. destruct (Z.eqb_spec (prodZ ss) n); [|discriminate]. injection H as <-. destruct (None_ ss G L) as (I1 & _). auto.
  - right. assert (Sp : exists p q, ss = p ++ -1 :: q /\ length (filter (fun x => x =? -1) p) = O /\ length (filter (fun x => x =? -1) q) = O).
    { clear - L. induction ss as [|x ss IH]; [discriminate|]. cbn [filter] in L. destruct (Z.eqb_spec x (-1)) as [->|N].
      - cbn [length] in L. injection L as L. exists [], ss. auto.
      - destruct (IH L) as (p & q & -> & Lp & Lq). exists (x :: p), q. cbn [app filter]. destruct (Z.eqb_spec x (-1)); [contradiction|]. auto. }
    destruct Sp as (p & q & -> & Lp & Lq). apply Forall_app in G. destruct G as [Gp Gq]. inversion_clear Gq as [|? ? _ Gq']. destruct (None_ p Gp Lp) as (P1 & P2 & P3). destruct (None_ q Gq' Lq) as (Q1 & Q2 & Q3).
    rewrite filter_app in H. cbn [filter] in H. change (-1 =? -1) with true in H. cbn [negb] in H. rewrite P2, Q2, prodZ_app in H. cbv zeta in H.
    destruct (Z.eqb_spec (prodZ p * prodZ q) 0); [discriminate|]. destruct (Z.eqb_spec (n mod (prodZ p * prodZ q)) 0) as [M|]; [|discriminate]. cbn [orb negb] in H. rewrite map_app in H. cbn [map] in H. change (-1 =? -1) with true in H. cbn match in H. rewrite P3, Q3 in H. injection H as <-.
    exists p, q. split; [reflexivity|]. split; [exact P1|]. split; [exact Q1|]. split; [assumption|]. split; [|reflexivity]. pose proof (Z.div_mod n (prodZ p * prodZ q) ltac:(assumption)) as D. rewrite M in D. lia.
Qed.
Lemma divided_zero : forall ss n, In 0 ss -> divided n ss = None.
Proof.
  induction ss as [|s ss IH]; intros n H; [destruct H|]. destruct H as [->|I0]; cbn [divided]; [reflexivity|]. destruct (s =? -1); [auto|]. destruct (s =? 0); auto.
Qed.
Lemma divided_some : forall ss n, ~ In 0 ss -> exists q, divided n ss = Some q.
Proof.
  induction ss as [|s ss IH]; intros n N; cbn [divided]; [eauto|]. destruct (s =? -1); [apply IH; intros C; apply N; now right|]. destruct (Z.eqb_spec s 0) as [->|]; [exfalso; apply N; now left|]. apply IH. intros C. apply N. now right.
Qed.
Lemma divided_app : forall a b n, divided n (a ++ b) = do m <- divided n a; divided m b.
Proof. induction a as [|s a IH]; intros b n; cbn [app divided]; [reflexivity|]. destruct (s =? -1); [auto|]. destruct (s =? 0); auto. Qed.
Lemma divided_product : forall ss n, 0 <= n -> Forall (fun s => 0 < s) ss -> divided n ss = Some (n / prodZ ss).
Proof.
  intros ss n N F. revert n N. induction F as [|s ss X F IH]; intros n N; cbn [divided]; [cbn; now rewrite Z.div_1_r|].
  destruct (Z.eqb_spec s (-1)); [lia|]. destruct (Z.eqb_spec s 0); [lia|]. rewrite Z.quot_div_nonneg by lia. pose proof (prodZ_pos ss F) as P. rewrite IH by (apply Z.div_pos; lia). change (prodZ (s :: ss)) with (s * prodZ ss). now rewrite Z.div_div by lia.
Qed.
Lemma find_inferred_none : forall ss j, Forall (fun s => 0 <= s) ss -> find_inferred j ss = None.
Proof. intros ss j F. revert j. induction F as [|s ss X F IH]; intros j; cbn [find_inferred]; [reflexivity|]. destruct (Z.eqb_spec s (-1)); [lia|auto]. Qed.
Lemma find_inferred_at : forall p q j, Forall (fun s => 0 <= s) p -> find_inferred j (p ++ -1 :: q) = Some (j + length p)%nat.
Proof. intros p q j F. revert j. induction F as [|s p X F IH]; intros j; cbn [app find_inferred length]; [change (-1 =? -1) with true; cbn; f_equal; lia|]. destruct (Z.eqb_spec s (-1)); [lia|]. rewrite IH. f_equal. lia. Qed.
Lemma filter_nonneg : forall ss, Forall (fun s => 0 <= s) ss -> filter (fun s => negb (s =? -1)) ss = ss /\ minus_ones ss = 0 /\ filter (Z.eqb (-1)) ss = [].
Proof.
  intros ss F. unfold minus_ones. assert (filter (fun s => negb (s =? -1)) ss = ss /\ filter (Z.eqb (-1)) ss = []) as [I1 I2].
  { induction F as [|s ss X F IH]; [auto|]. cbn [filter]. destruct (Z.eqb_spec s (-1)); [lia|]. destruct (Z.eqb_spec (-1) s); [lia|]. cbn [negb]. destruct IH as [-> ->]. auto. }
  rewrite I2. auto.
Qed.
Lemma minus_ones_app : forall a b, minus_ones (a ++ b) = minus_ones a + minus_ones b.
Proof. intros. unfold minus_ones, zlen. rewrite filter_app, app_length. lia. Qed.
Lemma view_exact : forall A (t : tensor A) s, Forall (fun n => 0 <= n) s -> prodZ s = prodZ (sizes t) -> view t s = Some (reindex s (fun ix => unravel (sizes t) (ravel s ix)) t).
Proof.
  intros A t s F P. unfold view, infer. destruct (filter_nonneg s F) as (-> & _ & _).
  assert (X : existsb (fun x => x <? 0) s = false). { apply not_true_is_false. intros H. apply existsb_exists in H. destruct H as (x & Ix & Hx). apply Z.ltb_lt in Hx. rewrite Forall_forall in F. apply F in Ix. lia. }
  rewrite X. replace (length (filter (fun x => x =? -1) s)) with O; [|symmetry; clear - F; induction F as [|x l X F IH]; [reflexivity|]; cbn [filter]; destruct (Z.eqb_spec x (-1)); [lia|exact IH]].
  rewrite P, Z.eqb_refl. reflexivity.
Qed.
Lemma split_at : forall (l : list Z) k, (k < length l)%nat -> l = firstn k l ++ get l k :: skipn (S k) l.
Proof.
  intros l k L. pose proof (split3 Z l k k (le_n k) L) as E. replace (S k - k)%nat with 1%nat in E by lia. rewrite E at 1. f_equal. clear E. revert k L. induction l as [|x l IH]; intros [|k] L; cbn [length] in L; try lia; [reflexivity|]. cbn [skipn]. rewrite IH by lia. reflexivity.
Qed.
Lemma unflatten_proof : forall A (t u : tensor A) static dim ss, sized t -> ~ In 0 ss -> (static = true \/ ~ In (-1) ss) -> torch_unflatten t dim ss = Some u ->
  exists v, dec_unflatten t static dim ss = Becomes (Some v) /\ same v u.
Proof.
  intros A t u static dim ss Zt N0 St H. unfold torch_unflatten in H. destruct (axis (rank t) dim) as [k|] eqn:Ax; [|discriminate]. cbn [obind] in H. destruct (infer (get (sizes t) k) ss) as [ss'|] eqn:Inf; [|discriminate]. cbn [obind] in H. injection H as <-.
  pose proof (axis_rank _ _ _ _ Ax) as Lk. pose proof (sized_get A t k Zt) as N. unfold sized in Zt.
  pose proof (Forall_firstn Z _ k _ Zt) as Fa. pose proof (Forall_skipn Z _ (S k) _ Zt) as Fb. pose proof (split_at (sizes t) k Lk) as E3.
  assert (Q : minus_ones ss <= 1 /\ (static = true \/ minus_ones ss <= 0) /\ (exists q, divided (if static then get (sizes t) k else -1) ss = Some q /\
     match find_inferred 0 ss with None => firstn k (sizes t) ++ filter (fun s => negb (s =? -1)) ss | Some j => insert (j + k) q (firstn k (sizes t) ++ filter (fun s => negb (s =? -1)) ss) end = firstn k (sizes t) ++ ss') /\ Forall (fun s => 0 <= s) ss' /\ prodZ ss' = get (sizes t) k).
  { destruct (infer_cases _ _ _ Inf) as [(F & P & ->)|(p & q & -> & Fp & Fq & Pn & Dv & ->)].
    - destruct (filter_nonneg ss F) as (E1 & E2 & _). rewrite E1, E2. split; [lia|]. split; [right; lia|]. split; [|auto]. destruct (divided_some ss (if static then get (sizes t) k else -1) N0) as [x Ex]. exists x. split; [exact Ex|]. now rewrite find_inferred_none by exact F.
    - destruct (filter_nonneg p Fp) as (P1 & P2 & _). destruct (filter_nonneg q Fq) as (Q1 & Q2 & _).
      assert (static = true) as -> by (destruct St as [|C]; [assumption|exfalso; apply C; apply in_or_app; right; now left]).
      assert (Pp : Forall (fun s => 0 < s) p). { apply Forall_forall. intros s Is. rewrite Forall_forall in Fp. specialize (Fp s Is). assert (s <> 0) by (intros ->; apply N0; apply in_or_app; now left). lia. }
      assert (Pq : Forall (fun s => 0 < s) q). { apply Forall_forall. intros s Is. rewrite Forall_forall in Fq. specialize (Fq s Is). assert (s <> 0) by (intros ->; apply N0; apply in_or_app; right; now right). lia. }
      pose proof (prodZ_pos p Pp). pose proof (prodZ_pos q Pq).
      split; [|split; [now left|]]. { change (-1 :: q) with ([-1] ++ q). rewrite !minus_ones_app, P2, Q2. change (minus_ones [-1]) with 1. reflexivity || (clear; lia). }
      split; [|split].
      + exists (get (sizes t) k / (prodZ p * prodZ q)). split.
        * rewrite divided_app, divided_product by auto. cbn [obind divided]. change (-1 =? -1) with true. cbn match. rewrite divided_product; [rewrite Z.div_div by lia; reflexivity|apply Z.div_pos; lia|exact Pq].
        * rewrite find_inferred_at by exact Fp. rewrite filter_app. cbn [filter]. change (-1 =? -1) with true. cbn [negb]. rewrite P1, Q1. rewrite app_assoc, insert_prefix, <- app_assoc; [reflexivity|]. rewrite app_length, firstn_length. lia.
      + apply Forall_app. split; [exact Fp|]. constructor; [apply Z.div_pos; nia|exact Fq].
      + rewrite prodZ_app. change (prodZ (?x :: q)) with (x * prodZ q). cbn. fold (prodZ q). generalize dependent (get (sizes t) k / (prodZ p * prodZ q)). intros. rewrite Dv. ring. }
  destruct Q as (Q1 & Q2 & (q & Eq & El) & Fs & Ps).
  unfold dec_unflatten. destruct (Z.gtb_spec (minus_ones ss) 1); [lia|]. rewrite (axis_to_positive _ _ _ Ax). unfold is_valid_dim. assert (R : rank t = Z.of_nat (length (sizes t))) by reflexivity.
  destruct (Z.geb_spec (Z.of_nat k) 0); [|lia]. destruct (Z.ltb_spec (Z.of_nat k) (rank t)); [|lia]. cbn [andb negb]. rewrite Nat2Z.id.
  replace (negb static && (minus_ones ss >? 0)) with false by (destruct static; [reflexivity|]; destruct Q2 as [|Q2]; [discriminate|]; cbn [negb andb]; destruct (Z.gtb_spec (minus_ones ss) 0); [lia|reflexivity]).
  rewrite Eq, El. rewrite <- app_assoc. rewrite view_exact.
  - eexists. split; [reflexivity|]. split; [reflexivity|]. cbn [sizes reindex elt]. intros ix W. f_equal.
    apply within_app in W. destruct W as (ia & r & -> & Wa & W). apply within_app in W. destruct W as (im & ib & -> & Wm & Wb). pose proof (within_length _ _ Wa) as Li. pose proof (within_length _ _ Wm) as Lm. rewrite firstn_length in Li.
    transitivity (unravel (firstn k (sizes t) ++ [get (sizes t) k] ++ skipn (S k) (sizes t)) (ravel (firstn k (sizes t) ++ ss' ++ skipn (S k) (sizes t)) (ia ++ im ++ ib))); [cbn [app]; now rewrite <- E3|].
    rewrite view_middle; auto; [|cbn; lia]. rewrite firstn_prefix, skipn_prefix, firstn_prefix by lia. rewrite (app_assoc ia im ib), skipn_prefix by (rewrite app_length; lia). f_equal. cbn [unravel app]. change (prodZ []) with 1. rewrite Z.div_1_r. reflexivity.
  - apply Forall_app. split; [exact Fa|]. apply Forall_app. auto.
  - transitivity (prodZ (firstn k (sizes t) ++ get (sizes t) k :: skipn (S k) (sizes t))); [|now rewrite <- E3]. rewrite !prodZ_app, Ps. reflexivity.
Qed.

(** * Shuffles *)
(** [u] has these sizes, and at every index made of a prefix and a tail the element of [t] that is said. *)
Lemma split_dim_at : forall A (t : tensor A) p n q o d, sizes t = p ++ n :: q -> d = zlen p -> 0 < o -> n mod o = 0 ->
  exists u, split_dim t d o = Some u /\ sizes u = p ++ o :: n / o :: q /\
            forall ip i j iq, length ip = length p -> elt u (ip ++ i :: j :: iq) = elt t (ip ++ i * (n / o) + j :: iq).
Proof.
  intros A t p n q o d Es -> Ho M. unfold split_dim, rank. rewrite Es, zlen_nat, get_prefix, M by reflexivity. unfold zlen at 1 2 3. rewrite app_length. cbn [length].
  destruct (Z.leb_spec 0 (Z.of_nat (length p))); [|lia]. destruct (Z.ltb_spec (Z.of_nat (length p)) (Z.of_nat (length p + S (length q)))); [|lia]. destruct (Z.ltb_spec 0 o); [|lia]. cbn [andb]. change (0 =? 0) with true. cbn match.
  eexists. split; [reflexivity|]. cbn [sizes reindex elt]. split; [now rewrite put_prefix, insert_prefix by reflexivity|].
  intros ip i j iq L. f_equal. rewrite remove_prefix, put_prefix, get_prefix by exact L. do 2 f_equal. f_equal. change (i :: j :: iq) with ([i] ++ j :: iq). rewrite app_assoc. apply get_prefix. rewrite app_length. cbn [length]. lia.
Qed.
Lemma collapse2_at : forall A (t : tensor A) p a b q d e, sizes t = p ++ a :: b :: q -> d = zlen p -> e = d + 1 ->
  exists u, collapse t d e = Some u /\ sizes u = p ++ a * b :: q /\
            forall ip i iq, length ip = length p -> elt u (ip ++ i :: iq) = elt t (ip ++ i / b :: i mod b :: iq).
Proof.
  intros A t p a b q d e Es -> ->. unfold collapse, rank. rewrite Es. unfold zlen. rewrite app_length. cbn [length].
  destruct (Z.leb_spec 0 (Z.of_nat (length p))); [|lia]. destruct (Z.leb_spec (Z.of_nat (length p)) (Z.of_nat (length p) + 1)); [|lia]. destruct (Z.ltb_spec (Z.of_nat (length p) + 1) (Z.of_nat (length p + S (S (length q))))); [|lia]. cbn [andb].
  rewrite Nat2Z.id. replace (Z.to_nat (Z.of_nat (length p) + 1)) with (S (length p)) by lia. eexists. split; [reflexivity|]. cbn [sizes reindex elt]. unfold merge_sizes, spread.
  replace (S (S (length p)) - length p)%nat with 2%nat by lia. rewrite firstn_prefix, skipn_prefix by reflexivity. cbn [firstn]. split.
  - f_equal. f_equal; [unfold prodZ; cbn [fold_right]; ring|]. change (a :: b :: q) with ([a; b] ++ q). rewrite app_assoc. rewrite skipn_prefix; [reflexivity|]. rewrite app_length. cbn [length]. lia.
  - intros ip i iq L. f_equal. rewrite firstn_prefix, get_prefix by exact L. f_equal. cbn [unravel app]. change (prodZ [b]) with (b * 1). change (prodZ []) with 1. rewrite Z.mul_1_r, Z.div_1_r. do 2 f_equal. change (i :: iq) with ([i] ++ iq). rewrite app_assoc. apply skipn_prefix. rewrite app_length. cbn [length]. lia.
Qed.
Lemma collapse3_at : forall A (t : tensor A) p a b c q d e, sizes t = p ++ a :: b :: c :: q -> d = zlen p -> e = d + 2 ->
  exists u, collapse t d e = Some u /\ sizes u = p ++ a * (b * c) :: q /\
            forall ip i iq, length ip = length p -> elt u (ip ++ i :: iq) = elt t (ip ++ i / (b * c) :: (i mod (b * c)) / c :: (i mod (b * c)) mod c :: iq).
Proof.
  intros A t p a b c q d e Es -> ->. unfold collapse, rank. rewrite Es. unfold zlen. rewrite app_length. cbn [length].
  destruct (Z.leb_spec 0 (Z.of_nat (length p))); [|lia]. destruct (Z.leb_spec (Z.of_nat (length p)) (Z.of_nat (length p) + 2)); [|lia]. destruct (Z.ltb_spec (Z.of_nat (length p) + 2) (Z.of_nat (length p + S (S (S (length q)))))); [|lia]. cbn [andb].
  rewrite Nat2Z.id. replace (Z.to_nat (Z.of_nat (length p) + 2)) with (S (S (length p))) by lia. eexists. split; [reflexivity|]. cbn [sizes reindex elt]. unfold merge_sizes, spread.
  replace (S (S (S (length p))) - length p)%nat with 3%nat by lia. rewrite firstn_prefix, skipn_prefix by reflexivity. cbn [firstn]. split.
  - f_equal. f_equal; [unfold prodZ; cbn [fold_right]; ring|]. change (a :: b :: c :: q) with ([a; b; c] ++ q). rewrite app_assoc. rewrite skipn_prefix; [reflexivity|]. rewrite app_length. cbn [length]. lia.
  - intros ip i iq L. f_equal. rewrite firstn_prefix, get_prefix by exact L. f_equal. cbn [unravel app]. change (prodZ [b; c]) with (b * (c * 1)). change (prodZ [c]) with (c * 1). change (prodZ []) with 1. rewrite !Z.mul_1_r, Z.div_1_r. do 3 f_equal. change (i :: iq) with ([i] ++ iq). rewrite app_assoc. apply skipn_prefix. rewrite app_length. cbn [length]. lia.
Qed.
Lemma position_app_left : forall x a b, In x a -> position x (a ++ b) = position x a.
Proof. induction a as [|y a IH]; intros b H; [destruct H|]. cbn [app position]. destruct (Nat.eqb_spec x y); [reflexivity|]. destruct H as [->|H]; [contradiction|]. now rewrite IH. Qed.
Lemma position_app_right : forall x a b, ~ In x a -> position x (a ++ b) = (length a + position x b)%nat.
Proof. induction a as [|y a IH]; intros b H; [reflexivity|]. cbn [app position length]. destruct (Nat.eqb_spec x y) as [->|]; [exfalso; apply H; now left|]. rewrite IH; [reflexivity|]. intros C. apply H. now right. Qed.
Lemma position_seq : forall n k, (k < n)%nat -> position k (seq 0 n) = k.
Proof.
  intros n k H. pose proof (position_nth (seq 0 n) k O (seq_NoDup n 0)) as P. rewrite seq_length in P. specialize (P H). rewrite seq_nth in P by exact H. exact P.
Qed.
Lemma position_shift : forall n x l, position (n + x) (map (Nat.add n) l) = position x l.
Proof. intros n x. induction l as [|y l IH]; [reflexivity|]. cbn [map position]. destruct (Nat.eqb_spec (n + x) (n + y)), (Nat.eqb_spec x y); try lia; congruence. Qed.
Lemma permute_tail : forall A (t : tensor A) p s ks ds, sizes t = p ++ s -> Permutation (seq 0 (length s)) ks -> ds = map Z.of_nat (seq 0 (length p) ++ map (Nat.add (length p)) ks) ->
  exists u, permute t ds = Some u /\ sizes u = p ++ map (get s) ks /\
            forall ip i, length ip = length p -> elt u (ip ++ i) = elt t (ip ++ map (fun k => get i (position k ks)) (seq 0 (length s))).
Proof.
  intros A t p s ks ds Es P ->. set (n := length p). assert (Lk : length ks = length s) by (apply Permutation_length in P; now rewrite seq_length in P).
  assert (Lt : length (sizes t) = (n + length s)%nat) by (rewrite Es, app_length; reflexivity).
  assert (Pall : Permutation (seq 0 (length (sizes t))) (seq 0 n ++ map (Nat.add n) ks)).
  { rewrite Lt, seq_app. apply Permutation_app_head. cbn [Nat.add]. replace (seq n (length s)) with (map (Nat.add n) (seq 0 (length s))); [now apply Permutation_map|]. clear. generalize (length s). intros m. rewrite <- (Nat.add_0_r n) at 2. generalize 0%nat. induction m as [|m IH]; intros k; [reflexivity|]. cbn [seq map]. rewrite IH. f_equal. f_equal. lia. }
  rewrite permute_is by exact Pall. eexists. split; [reflexivity|]. cbn [sizes reindex elt]. rewrite Es. split.
  - rewrite map_app, map_map. f_equal.
    + apply nth_ext with (d := get (p ++ s) 0) (d' := 0); rewrite map_length, seq_length; [reflexivity|]. intros k Hk. rewrite map_nth, seq_nth by exact Hk. cbn [Nat.add]. now rewrite get_app_left.
    + apply map_ext. intros k. apply get_app_right.
  - intros ip i Li. f_equal. rewrite app_length. fold n. rewrite seq_app, map_app. cbn [Nat.add]. f_equal.
    + apply nth_ext with (d := get (ip ++ i) (position 0 (seq 0 n ++ map (Nat.add n) ks))) (d' := 0); rewrite map_length, seq_length; [lia|]. intros k Hk.
      rewrite (map_nth (fun k => get (ip ++ i) (position k (seq 0 n ++ map (Nat.add n) ks)))), seq_nth by exact Hk. cbn [Nat.add]. rewrite position_app_left by (apply in_seq; lia). rewrite position_seq by exact Hk. now rewrite get_app_left by lia.
    + assert (Sq : seq n (length s) = map (Nat.add n) (seq 0 (length s))). { clear. generalize (length s). intros m. rewrite <- (Nat.add_0_r n) at 1. generalize 0%nat. induction m as [|m IH]; intros k; [reflexivity|]. cbn [seq map]. rewrite <- IH. f_equal. f_equal. lia. }
      rewrite Sq, map_map. apply map_ext_in. intros k Hk. apply in_seq in Hk. rewrite position_app_right by (rewrite in_seq; lia). rewrite seq_length, position_shift. rewrite <- Li. apply get_app_right.
Qed.
Lemma last_three : forall (s : list Z), (3 <= length s)%nat -> let n := (length s - 3)%nat in s = firstn n s ++ [get s n; get s (n + 1); get s (n + 2)] /\ length (firstn n s) = n.
Proof.
  intros s L n. assert (Ln : length (firstn n s) = n) by (rewrite firstn_length; lia). split; [|exact Ln].
  rewrite <- (firstn_skipn n s) at 1. f_equal. assert (Ls : length (skipn n s) = 3%nat) by (rewrite skipn_length; lia).
  assert (G : forall k, get s (n + k) = get (skipn n s) k). { intros k. rewrite <- (firstn_skipn n s) at 1. replace (n + k)%nat with (length (firstn n s) + k)%nat by lia. apply get_app_right. }
  rewrite !G. replace (get s n) with (get (skipn n s) 0) by (rewrite <- G; f_equal; lia). destruct (skipn n s) as [|x [|y [|z [|]]]]; try discriminate. reflexivity.
Qed.
Lemma range_zero : forall n, range 0 (Z.of_nat n) = map Z.of_nat (seq 0 n).
Proof. intros n. unfold range. replace (Z.to_nat (Z.of_nat n - 0)) with n by lia. apply map_ext. intros. lia. Qed.
Lemma size_int_at : forall A (t : tensor A) p x q d, sizes t = p ++ x :: q -> d = zlen p -> size_int t d = Some x.
Proof. intros A t p x q d Es ->. unfold zlen. rewrite size_int_nat by (rewrite Es, app_length; cbn [length]; lia). now rewrite Es, get_prefix by reflexivity. Qed.
Lemma pixel_shuffle_proof : forall A (t u : tensor A) r, get (sizes t) (length (sizes t) - 3) <> 0 -> sized t -> torch_pixel_shuffle t r = Some u ->
  exists v, dec_pixel_shuffle t r = Some (Some v) /\ same v u.
Proof.
  intros A t u r Nc Zt H. unfold torch_pixel_shuffle in H. unfold dec_pixel_shuffle. destruct (Z.ltb_spec (rank t) 3) as [|R3]; [discriminate|]. destruct (Z.leb_spec r 0) as [|Rp]; [discriminate|]. cbn [orb] in H.
  unfold rank, zlen in *. destruct (last_three (sizes t) ltac:(lia)) as [Es Lp]. set (n := (length (sizes t) - 3)%nat) in *.
  assert (Nn : Z.of_nat (length (sizes t)) - 3 = Z.of_nat n) by lia. rewrite Nn.
  pose proof (sized_get A t n Zt) as C0. set (c := get (sizes t) n) in *. set (h := get (sizes t) (n + 1)) in *. set (w := get (sizes t) (n + 2)) in *. set (p := firstn n (sizes t)) in *.
  destruct (Z.eqb_spec (c mod (r * r)) 0) as [M|]; [|discriminate]. cbn [negb] in H. injection H as <-.
  assert (Zp : Z.of_nat n = zlen p) by (unfold zlen; lia).
  rewrite (size_int_at A t p c [h; w] _ Es Zp). cbn [obind]. destruct (Z.eqb_spec (r * r) 0); [nia|]. cbn [obind].
  assert (Ec : c = r * r * (c / (r * r))) by (pose proof (Z.div_mod c (r * r) ltac:(nia)); lia). set (o := c / (r * r)) in *. clearbody o c h w. assert (Ho : 0 < o) by nia. subst c. 
  assert (Mo : (r * r * o) mod o = 0) by (apply Z.mod_mul; lia). assert (Do : r * r * o / o = r * r) by (apply Z.div_mul; lia).
  destruct (split_dim_at A t p _ [h; w] o (Z.of_nat n) Es Zp Ho Mo) as (a & Ea & Sa & Fa). rewrite Ea. cbn [obind]. rewrite Do in *.
  assert (Mr : (r * r) mod r = 0) by (apply Z.mod_mul; lia). assert (Dr : r * r / r = r) by (apply Z.div_mul; lia).
  destruct (split_dim_at A a (p ++ [o]) (r * r) [h; w] r (Z.of_nat n + 1)) as (b & Eb & Sb & Fb); [rewrite Sa, <- app_assoc; reflexivity|unfold zlen; rewrite app_length; cbn [length]; lia|lia|exact Mr|]. rewrite Eb. cbn [obind]. rewrite Dr in *. rewrite <- app_assoc in Sb. cbn [app] in Sb.
  destruct (permute_tail A b p [o; r; r; h; w] [0; 3; 1; 4; 2]%nat (range 0 (Z.of_nat n) ++ map (Z.add (Z.of_nat n)) [0; 3; 1; 4; 2])) as (cc & Ecc & Sc & Fc).
  { exact Sb. } { cbn [length seq]. apply perm_skip. apply Permutation_sym. change [3; 1; 4; 2]%nat with ([3] ++ [1; 4; 2])%nat. apply (Permutation_cons_app [1; 2]%nat [4]%nat 3%nat). cbn [app]. apply perm_skip. apply perm_swap. }
  { rewrite map_app, range_zero, Lp. f_equal. cbn [map]. repeat (f_equal; try lia). }
  rewrite Ecc. cbn [obind]. cbn [map] in Sc. change (get [o; r; r; h; w] 0) with o in Sc. change (get [o; r; r; h; w] 3) with h in Sc. change (get [o; r; r; h; w] 1) with r in Sc. change (get [o; r; r; h; w] 4) with w in Sc. change (get [o; r; r; h; w] 2) with r in Sc.
  destruct (collapse2_at A cc (p ++ [o; h; r]) w r [] (Z.of_nat n + 3) (Z.of_nat n + 4)) as (d & Ed & Sd & Fd); [rewrite Sc, <- app_assoc; reflexivity|unfold zlen; rewrite app_length; cbn [length]; lia|lia|]. rewrite Ed. cbn [obind]. rewrite <- app_assoc in Sd. cbn [app] in Sd.
  destruct (collapse2_at A d (p ++ [o]) h r [w * r] (Z.of_nat n + 1) (Z.of_nat n + 2)) as (e & Ee & Se & Fe); [rewrite Sd, <- app_assoc; reflexivity|unfold zlen; rewrite app_length; cbn [length]; lia|lia|]. rewrite Ee. rewrite <- app_assoc in Se. cbn [app] in Se.
  exists e. split; [reflexivity|]. split; [exact Se|]. cbn [sizes reindex elt]. rewrite Se. intros ix W. apply within_app in W. destruct W as (ip & i3 & -> & Wp & W3).
  apply within_cons in W3. destruct W3 as (x & i2 & -> & X & W2). apply within_cons in W2. destruct W2 as (y & i1 & -> & Y & W1). apply within_cons in W1. destruct W1 as (z & i0 & -> & Hz & W0). apply within_nil in W0. subst i0.
  pose proof (within_length _ _ Wp) as Li. rewrite Lp in Li.
  assert (G0 : get (ip ++ [x; y; z]) n = x) by (apply get_prefix; exact Li). assert (G1 : get (ip ++ [x; y; z]) (n + 1) = y) by (rewrite <- Li; apply get_app_right). assert (G2 : get (ip ++ [x; y; z]) (n + 2) = z) by (rewrite <- Li; apply get_app_right).
  rewrite G0, G1, G2, firstn_prefix by exact Li.
  change (ip ++ [x; y; z]) with (ip ++ [x] ++ [y; z]). rewrite app_assoc, Fe by (rewrite !app_length, Lp, Li; reflexivity). rewrite <- app_assoc. cbn [app].
  change (ip ++ [x; y / r; y mod r; z]) with (ip ++ [x; y / r; y mod r] ++ [z]). rewrite app_assoc, Fd by (rewrite !app_length, Lp, Li; reflexivity). rewrite <- app_assoc. cbn [app].
  rewrite Fc by lia. cbn [length seq map position Nat.eqb]. unfold get; cbn [nth].
  change (ip ++ [x; y mod r; z mod r; y / r; z / r]) with (ip ++ [x] ++ [y mod r; z mod r; y / r; z / r]). rewrite app_assoc, Fb by (rewrite !app_length, Lp, Li; reflexivity). rewrite <- app_assoc. cbn [app].
  rewrite Fa by lia. do 3 f_equal. ring.
Qed.
Lemma split_by_zero : forall A (t : tensor A) d, split_dim t d 0 = None.
Proof. intros. unfold split_dim. change (0 <? 0) with false. now rewrite andb_false_r. Qed.
Lemma pixel_shuffle_empty : forall A (t : tensor A) r, 3 <= rank t -> get (sizes t) (length (sizes t) - 3) = 0 -> dec_pixel_shuffle t r = Some None.
Proof.
  intros A t r R3 Z0. unfold dec_pixel_shuffle. destruct (Z.ltb_spec (rank t) 3); [lia|]. unfold rank, zlen in *. replace (Z.of_nat (length (sizes t)) - 3) with (Z.of_nat (length (sizes t) - 3)) by lia.
  rewrite size_int_nat by lia. rewrite Z0. cbn [obind]. destruct (r * r =? 0); cbn [obind]; [reflexivity|]. destruct (Z.eq_dec (r * r) 0) as [->|]; [|rewrite Z.div_0_l by assumption]; rewrite split_by_zero; reflexivity.
Qed.
Lemma pixel_unshuffle_proof : forall A (t u : tensor A) r, get (sizes t) (length (sizes t) - 2) <> 0 -> get (sizes t) (length (sizes t) - 1) <> 0 -> sized t -> torch_pixel_unshuffle t r = Some u ->
  exists v, dec_pixel_unshuffle t r = Some (Some v) /\ same v u.
Proof.
  intros A t u r Nh Nw Zt H. unfold torch_pixel_unshuffle in H. unfold dec_pixel_unshuffle. destruct (Z.ltb_spec (rank t) 3) as [|R3]; [discriminate|]. destruct (Z.leb_spec r 0) as [|Rp]; [discriminate|]. cbn [orb] in H.
  unfold rank, zlen in *. destruct (last_three (sizes t) ltac:(lia)) as [Es Lp]. replace (length (sizes t) - 2)%nat with (length (sizes t) - 3 + 1)%nat in Nh by lia. replace (length (sizes t) - 1)%nat with (length (sizes t) - 3 + 2)%nat in Nw by lia. set (n := (length (sizes t) - 3)%nat) in *.
  assert (Nn : Z.of_nat (length (sizes t)) - 3 = Z.of_nat n) by lia. rewrite Nn.
  pose proof (sized_get A t (n + 1) Zt) as H0. pose proof (sized_get A t (n + 2) Zt) as W0. set (c := get (sizes t) n) in *. set (h := get (sizes t) (n + 1)) in *. set (w := get (sizes t) (n + 2)) in *. set (p := firstn n (sizes t)) in *.
  destruct (Z.eqb_spec (h mod r) 0) as [Mh|]; [|discriminate]. destruct (Z.eqb_spec (w mod r) 0) as [Mw|]; [|discriminate]. cbn [negb orb] in H. injection H as <-.
  assert (Zp : Z.of_nat n = zlen p) by (unfold zlen; lia).
  rewrite (size_int_at A t (p ++ [c]) h [w]) by (try (rewrite Es, <- app_assoc; reflexivity); unfold zlen; rewrite app_length; cbn [length]; lia). cbn [obind].
  rewrite (size_int_at A t (p ++ [c; h]) w []) by (try (rewrite Es, <- app_assoc; reflexivity); unfold zlen; rewrite app_length; cbn [length]; lia). cbn [obind].
  destruct (Z.eqb_spec r 0); [lia|]. cbn [obind].
  assert (Eh : h = r * (h / r)) by (pose proof (Z.div_mod h r ltac:(lia)); lia). assert (Ew : w = r * (w / r)) by (pose proof (Z.div_mod w r ltac:(lia)); lia). set (oh := h / r) in *. set (ow := w / r) in *. clearbody oh ow c h w. assert (Hoh : 0 < oh) by nia. assert (How : 0 < ow) by nia. subst h w.
  assert (Mo : (r * oh) mod oh = 0) by (apply Z.mod_mul; lia). assert (Do : r * oh / oh = r) by (apply Z.div_mul; lia). assert (Mo' : (r * ow) mod ow = 0) by (apply Z.mod_mul; lia). assert (Do' : r * ow / ow = r) by (apply Z.div_mul; lia).
  destruct (split_dim_at A t (p ++ [c]) (r * oh) [r * ow] oh (Z.of_nat n + 1)) as (a & Ea & Sa & Fa); [rewrite Es, <- app_assoc; reflexivity|unfold zlen; rewrite app_length; cbn [length]; lia|lia|exact Mo|]. rewrite Ea. cbn [obind]. rewrite Do in *. rewrite <- app_assoc in Sa. cbn [app] in Sa.
  destruct (split_dim_at A a (p ++ [c; oh; r]) (r * ow) [] ow (Z.of_nat n + 3)) as (b & Eb & Sb & Fb); [rewrite Sa, <- app_assoc; reflexivity|unfold zlen; rewrite app_length; cbn [length]; lia|lia|exact Mo'|]. rewrite Eb. cbn [obind]. rewrite Do' in *. rewrite <- app_assoc in Sb. cbn [app] in Sb.
  destruct (permute_tail A b p [c; oh; r; ow; r] [0; 2; 4; 1; 3]%nat (range 0 (Z.of_nat n) ++ map (Z.add (Z.of_nat n)) [0; 2; 4; 1; 3])) as (cc & Ecc & Sc & Fc).
  { exact Sb. } { cbn [length seq]. apply perm_skip. apply (Permutation_cons_app [2; 4]%nat [3]%nat 1%nat). cbn [app]. apply perm_skip. apply perm_swap. }
  { rewrite map_app, range_zero, Lp. f_equal. cbn [map]. repeat (f_equal; try lia). }
  rewrite Ecc. cbn [obind]. cbn [map] in Sc. unfold get in Sc; cbn [nth] in Sc.
  destruct (collapse3_at A cc p c r r [oh; ow] (Z.of_nat n) (Z.of_nat n + 2)) as (d & Ed & Sd & Fd); [exact Sc|exact Zp|lia|]. rewrite Ed.
  exists d. split; [reflexivity|]. split; [exact Sd|]. cbn [sizes reindex elt]. rewrite Sd. intros ix W. apply within_app in W. destruct W as (ip & i3 & -> & Wp & W3).
  apply within_cons in W3. destruct W3 as (x & i2 & -> & X & W2). apply within_cons in W2. destruct W2 as (y & i1 & -> & Y & W1). apply within_cons in W1. destruct W1 as (z & i0 & -> & Hz & Wi). apply within_nil in Wi. subst i0.
  pose proof (within_length _ _ Wp) as Li. rewrite Lp in Li.
  assert (G0 : get (ip ++ [x; y; z]) n = x) by (apply get_prefix; exact Li). assert (G1 : get (ip ++ [x; y; z]) (n + 1) = y) by (rewrite <- Li; apply get_app_right). assert (G2 : get (ip ++ [x; y; z]) (n + 2) = z) by (rewrite <- Li; apply get_app_right).
  rewrite G0, G1, G2, firstn_prefix by exact Li. rewrite Fd by lia. set (i := x / (r * r)). set (j := x mod (r * r) / r). set (k := x mod (r * r) mod r). clearbody i j k.
  rewrite Fc by lia. cbn [length seq map position Nat.eqb]. unfold get; cbn [nth].
  change (ip ++ [i; y; j; z; k]) with (ip ++ [i; y; j] ++ [z; k]). rewrite app_assoc, Fb by (rewrite !app_length, Lp, Li; reflexivity). rewrite <- app_assoc. cbn [app].
  change (ip ++ [i; y; j; z * r + k]) with (ip ++ [i] ++ [y; j; z * r + k]). rewrite app_assoc, Fa by (rewrite !app_length, Lp, Li; reflexivity). rewrite <- app_assoc. reflexivity.
Qed.
(** channel_shuffle: what is computed is the shuffle of as many groups as a group should have channels. *)
Lemma range_from : forall a b, range (Z.of_nat a) (Z.of_nat b) = map Z.of_nat (seq a (b - a)).
Proof.
  intros a b. unfold range. replace (Z.to_nat (Z.of_nat b - Z.of_nat a)) with (b - a)%nat by lia. generalize (b - a)%nat. intros m.
  assert (G : forall k, map (fun i => Z.of_nat a + Z.of_nat i) (seq k m) = map Z.of_nat (seq (a + k) m)).
  { induction m as [|m IH]; intros k; [reflexivity|]. cbn [seq map]. rewrite IH. f_equal; [lia|]. do 2 f_equal. lia. }
  rewrite G. do 2 f_equal. lia.
Qed.
Lemma swapped_tail : forall a b r m, length r = m -> map (fun k => get (a :: b :: r) (position k ([1; 0] ++ seq 2 m)%nat)) (seq 0 (S (S m))) = b :: a :: r.
Proof.
  intros a b r m L. cbn [seq map]. change (position 0 ([1; 0] ++ seq 2 m)%nat) with 1%nat. change (position 1 ([1; 0] ++ seq 2 m)%nat) with 0%nat. change (get (a :: b :: r) 1) with b. change (get (a :: b :: r) 0) with a. do 2 f_equal.
  apply nth_ext with (d := get (a :: b :: r) (position 0 ([1; 0] ++ seq 2 m)%nat)) (d' := 0); rewrite map_length, seq_length; [auto|]. intros k Hk.
  rewrite (map_nth (fun k => get (a :: b :: r) (position k ([1; 0] ++ seq 2 m)%nat))), seq_nth by exact Hk. rewrite position_app_right by (intros [C|[C|[]]]; lia).
  assert (P : position (2 + k) (seq 2 m) = k). { pose proof (position_nth (seq 2 m) k O (seq_NoDup m 2)) as P. rewrite seq_length in P. specialize (P Hk). rewrite seq_nth in P by exact Hk. exact P. }
  rewrite P. reflexivity.
Qed.
Lemma channel_shuffle_proof : forall A (t : tensor A) g, 3 <= rank t -> 0 < g -> 0 < get (sizes t) 1 -> get (sizes t) 1 mod g = 0 ->
  exists v u, dec_channel_shuffle t g = Some (Some v) /\ torch_channel_shuffle t (get (sizes t) 1 / g) = Some u /\ same v u.
Proof.
  intros A t g R3 Hg Hc M. unfold dec_channel_shuffle, torch_channel_shuffle. destruct (Z.ltb_spec (rank t) 3); [lia|]. cbn [orb].
  assert (exists n c rest, sizes t = n :: c :: rest /\ rest <> []) as (n & c & rest & Es & Nr). { unfold rank, zlen in R3. destruct (sizes t) as [|n [|c [|x rest]]]; cbn [length] in R3; try lia. eexists _, _, _. split; [reflexivity|discriminate]. }
  replace (get (sizes t) 1) with c in * by (rewrite Es; reflexivity).
  rewrite (size_int_at A t [n] c rest) by (try exact Es; reflexivity). cbn [obind]. destruct (Z.eqb_spec g 0); [lia|]. cbn [obind].
  assert (Ec : c = g * (c / g)) by (pose proof (Z.div_mod c g ltac:(lia)); lia). set (o := c / g) in *. clearbody o. assert (Ho : 0 < o) by nia. subst c.
  assert (Mo : (g * o) mod o = 0) by (apply Z.mod_mul; lia). assert (Do : g * o / o = g) by (apply Z.div_mul; lia). 
  destruct (split_dim_at A t [n] (g * o) rest o 1) as (a & Ea & Sa & Fa); [exact Es|reflexivity|exact Ho|exact Mo|]. rewrite Ea. cbn [obind]. rewrite Do in *.
  destruct (permute_tail A a [n] (o :: g :: rest) ([1; 0] ++ seq 2 (length rest))%nat ([0; 2; 1] ++ range 3 (rank t + 1))) as (b & Eb & Sb & Fb).
  { exact Sa. } { cbn [length seq app]. apply perm_swap. }
  { cbn [length seq map app]. replace (rank t + 1) with (Z.of_nat (3 + length rest)) by (unfold rank, zlen; rewrite Es; cbn [length]; lia). change 3 with (Z.of_nat 3). rewrite range_from. replace (3 + length rest - 3)%nat with (length rest) by lia. rewrite seq_shift. reflexivity. }
  rewrite Eb. cbn [obind].
  destruct (collapse2_at A b [n] g o rest 1 2) as (d & Ed & Sd & Fd).
  { rewrite Sb. cbn [map app]. f_equal. unfold get at 1 2; cbn [nth]. do 2 f_equal. clear. change (o :: g :: rest) with ([o; g] ++ rest). apply nth_ext with (d := get ([o; g] ++ rest) 0) (d' := 0); rewrite map_length, seq_length; [reflexivity|]. intros k Hk. rewrite map_nth, seq_nth by exact Hk. apply (get_app_right [o; g]). }
  { reflexivity. } { reflexivity. }
  rewrite Ed. destruct (Z.leb_spec o 0); [lia|]. rewrite Mo. cbn [orb negb]. change (0 =? 0) with true. cbn [negb]. eexists d, _. split; [reflexivity|]. split; [reflexivity|]. split; [rewrite Sd, Es; reflexivity|].
  cbn [sizes reindex elt]. rewrite Sd. cbn [app]. intros ix W. apply within_cons in W. destruct W as (x & i1 & -> & X & W). apply within_cons in W. destruct W as (y & ir & -> & Y & W). pose proof (within_length _ _ W) as Lr.
  unfold get; cbn [nth put]. transitivity (elt b ([x] ++ y / o :: y mod o :: ir)); [apply (Fd [x] y ir eq_refl)|]. rewrite Fb by reflexivity. cbn [length]. rewrite swapped_tail by exact Lr. apply (Fa [x] (y mod o) (y / o) ir eq_refl).
Qed.

(** * repeat *)
Lemma unsqueeze_at : forall A (t : tensor A) p s d, sizes t = p ++ s -> d = zlen p ->
  exists u, unsqueeze t d = Some u /\ sizes u = p ++ 1 :: s /\ forall ip x i, length ip = length p -> elt u (ip ++ x :: i) = elt t (ip ++ i).
Proof.
  intros A t p s d Es ->. unfold unsqueeze, rank. rewrite Es. unfold zlen. rewrite app_length, axis_nat by lia. cbn [obind]. eexists. split; [reflexivity|]. cbn [sizes reindex elt]. split; [now rewrite insert_prefix|].
  intros ip x i L. now rewrite remove_prefix.
Qed.
Lemma flatten2_at : forall A (t : tensor A) p a b q d e, sizes t = p ++ a :: b :: q -> d = zlen p -> e = d + 1 ->
  exists u, flatten t d e = Some u /\ sizes u = p ++ a * b :: q /\
            forall ip i iq, length ip = length p -> elt u (ip ++ i :: iq) = elt t (ip ++ i / b :: i mod b :: iq).
Proof.
  intros A t p a b q d e Es Ed Ee. destruct (collapse2_at A t p a b q d e Es Ed Ee) as (u & Eu & Su & Fu). exists u. split; [|auto]. rewrite <- Eu.
  assert (L : length (sizes t) = (length p + S (S (length q)))%nat) by (rewrite Es, app_length; reflexivity).
  unfold flatten, collapse. destruct (sizes t) as [|x s] eqn:E0; [cbn [length] in L; lia|]. rewrite <- E0 in *. clear x s E0. unfold zlen in Ed. assert (e = Z.of_nat (S (length p))) by lia. subst d e. unfold rank, zlen. rewrite L.
  replace (Z.of_nat (length p) + 1) with (Z.of_nat (S (length p))) by lia. rewrite !axis_nat by lia. cbn [obind]. destruct (Nat.leb_spec (length p) (S (length p))); [|lia].
  destruct (Z.leb_spec 0 (Z.of_nat (length p))); [|lia]. destruct (Z.leb_spec (Z.of_nat (length p)) (Z.of_nat (S (length p)))); [|lia]. destruct (Z.ltb_spec (Z.of_nat (S (length p))) (Z.of_nat (length p + S (S (length q))))); [|lia]. cbn [andb]. now rewrite !Nat2Z.id.
Qed.
Lemma lift_batch_at : forall A n (t : tensor A) p s, sizes t = p ++ s ->
  exists u, lift_batch (length p) n t = Some u /\ sizes u = p ++ repeat 1 n ++ s /\ forall ip ib i, length ip = length p -> length ib = n -> elt u (ip ++ ib ++ i) = elt t (ip ++ i).
Proof.
  intros A n. induction n as [|n IH]; intros t p s Es; cbn [lift_batch].
  - exists t. split; [reflexivity|]. split; [exact Es|]. intros ip [|] i _ L; [reflexivity|discriminate].
  - destruct (unsqueeze_at A t p s (Z.of_nat (length p)) Es eq_refl) as (u & Eu & Su & Fu). rewrite Eu. cbn [obind]. assert (Su' : sizes u = (p ++ [1]) ++ s) by (rewrite Su, <- app_assoc; reflexivity).
    destruct (IH u (p ++ [1]) s Su') as (v & Ev & Sv & Fv). rewrite app_length in Ev. cbn [length] in Ev. rewrite Nat.add_1_r in Ev. exists v. split; [exact Ev|]. split; [rewrite Sv, <- app_assoc; reflexivity|].
    intros ip [|x ib] i Lp Lb; cbn [length] in Lb; [discriminate|]. change (ip ++ (x :: ib) ++ i) with (ip ++ [x] ++ ib ++ i). rewrite app_assoc, Fv by (rewrite ?app_length; cbn [length]; lia). rewrite <- app_assoc. apply Fu. exact Lp.
Qed.
Definition plan (x : (bool * Z) * (bool * Z)) : Z * bool * Z := plan_axis (fst x) (snd x).
Definition of_axis (x : (bool * Z) * (bool * Z)) : Z := snd (fst x).
Definition of_repeat (x : (bool * Z) * (bool * Z)) : Z := snd (snd x).
Lemma plan_cases : forall x, 0 <= of_repeat x ->
  (kept (plan x) = true /\ snd (fst (plan x)) = false /\ fst (fst (plan x)) = 1 /\ of_repeat x = 1) \/
  (kept (plan x) = true /\ snd (fst (plan x)) = true /\ of_axis x = 1) \/
  (kept (plan x) = false /\ snd (fst (plan x)) = false /\ (fst (fst (plan x)) =? 1) = false).
Proof.
  intros [[st n] [k r]] H. unfold of_repeat, of_axis, plan, plan_axis, kept, known in *. cbn [fst snd] in *.
  destruct (((if st then n else -1) =? 1) && ((if k then r else -1) >? 1)) eqn:B.
  - right. left. apply andb_true_iff in B. destruct B as [B _]. apply Z.eqb_eq in B. rewrite orb_true_r. destruct st; [auto|discriminate].
  - rewrite orb_false_r. destruct (Z.eqb_spec (if k then r else -1) 1) as [E|]; [left|right; right]; auto. destruct k; [auto|discriminate].
Qed.
(** Sizes after the axes are lifted; the indices they come from. *)
Definition lift1 (x : (bool * Z) * (bool * Z)) : list Z := if kept (plan x) then [of_axis x] else [1; of_axis x].
Fixpoint lower (xs : list ((bool * Z) * (bool * Z))) (ix : list Z) : list Z :=
  match xs with [] => [] | x :: xs => if kept (plan x) then match ix with i :: ix => i :: lower xs ix | _ => [] end else match ix with _ :: i :: ix => i :: lower xs ix | _ => [] end end.
Lemma lift_repeats_at : forall A xs (t : tensor A) p i extra, (i + extra)%nat = length p -> sizes t = p ++ map of_axis xs ->
  exists u, lift_repeats i extra (map plan xs) t = Some u /\ sizes u = p ++ flat_map lift1 xs /\
            forall ip il, length ip = length p -> length il = length (flat_map lift1 xs) -> elt u (ip ++ il) = elt t (ip ++ lower xs il).
Proof.
  intros A xs. induction xs as [|x xs IH]; intros t p i extra Li Es; cbn [map lift_repeats flat_map lower].
  - exists t. split; [reflexivity|]. split; [exact Es|]. intros ip [|] _ L; [reflexivity|discriminate].
  - assert (L1 : lift1 x = if kept (plan x) then [of_axis x] else [1; of_axis x]) by reflexivity. rewrite !L1. clear L1. destruct (kept (plan x)).
    + destruct (IH t (p ++ [of_axis x]) (S i) extra) as (u & Eu & Su & Fu); [rewrite app_length; cbn [length]; lia|rewrite Es, <- app_assoc; reflexivity|]. exists u. split; [exact Eu|]. split; [rewrite Su, <- app_assoc; reflexivity|].
      intros ip il Lp Ll. destruct il as [|y il]; [discriminate|]. cbn [app length] in Ll. change (ip ++ y :: il) with (ip ++ [y] ++ il). rewrite app_assoc, Fu by (rewrite ?app_length; cbn [length]; lia). rewrite <- app_assoc. reflexivity.
    + destruct (unsqueeze_at A t p (map of_axis (x :: xs)) (Z.of_nat (i + extra)) Es ltac:(unfold zlen; lia)) as (v & Ev & Sv & Fv). rewrite Ev. cbn [obind].
      destruct (IH v (p ++ [1; of_axis x]) (S i) (S extra)) as (u & Eu & Su & Fu); [rewrite app_length; cbn [length]; lia|rewrite Sv, <- app_assoc; reflexivity|]. exists u. split; [exact Eu|]. split; [rewrite Su, <- app_assoc; reflexivity|].
      intros ip il Lp Ll. destruct il as [|y [|z il]]; try discriminate. cbn [app length] in Ll. change (ip ++ y :: z :: il) with (ip ++ [y; z] ++ il). rewrite app_assoc, Fu by (rewrite ?app_length; cbn [length]; lia). rewrite <- app_assoc. cbn [app]. now rewrite Fv.
Qed.
Definition want1 (x : (bool * Z) * (bool * Z)) : list Z := if kept (plan x) then [of_repeat x * of_axis x] else [of_repeat x; of_axis x].
Lemma lengths_at : forall A xs (t : tensor A) p, Forall (fun x => 0 <= of_repeat x) xs -> sizes t = p ++ flat_map lift1 xs -> lengths (zlen p) (map plan xs) t = Some (flat_map want1 xs).
Proof.
  intros A xs. induction xs as [|x xs IH]; intros t p F Es; [reflexivity|]. inversion_clear F as [|? ? Fx Fr]. cbn [map flat_map] in *. unfold want1 at 1. unfold lift1 at 1 in Es.
  destruct (plan x) as [[ri bc] r] eqn:Ep. assert (Er : r = of_repeat x) by (unfold plan, plan_axis in Ep; injection Ep as _ _ <-; reflexivity).
  destruct (plan_cases x Fx) as [(K & B & R1 & R2)|[(K & B & N1)|(K & B & R1)]]; rewrite Ep in *; cbn [fst snd] in *; rewrite K in *; cbn [lengths]; rewrite B.
  - rewrite R1. cbn [negb]. change (1 =? 1) with true. cbn [negb]. rewrite (size_int_at A t p (of_axis x) (flat_map lift1 xs)) by auto. cbn [obind]. replace (zlen p + 1) with (zlen (p ++ [of_axis x])) by (unfold zlen; rewrite app_length; cbn [length]; lia).
    rewrite IH; [|exact Fr|rewrite Es, <- app_assoc; reflexivity]. cbn [obind app]. rewrite R2, Z.mul_1_l. reflexivity.
  - replace (zlen p + 1) with (zlen (p ++ [of_axis x])) by (unfold zlen; rewrite app_length; cbn [length]; lia). rewrite IH; [|exact Fr|rewrite Es, <- app_assoc; reflexivity]. cbn [obind app]. rewrite N1, Z.mul_1_r, Er. reflexivity.
  - rewrite R1. cbn [negb]. rewrite (size_int_at A t (p ++ [1]) (of_axis x) (flat_map lift1 xs)); [|rewrite Es, <- app_assoc; reflexivity|unfold zlen; rewrite app_length; cbn [length]; lia]. cbn [obind].
    replace (zlen p + 2) with (zlen (p ++ [1; of_axis x])) by (unfold zlen; rewrite app_length; cbn [length]; lia). rewrite IH; [|exact Fr|rewrite Es, <- app_assoc; reflexivity]. cbn [obind app]. now rewrite Er.
Qed.
Lemma expanded_ones : forall rs s want, Forall (fun r => 0 <= r) rs -> expanded (repeat 1 (length rs) ++ s) (rs ++ want) = do r <- expanded s want; Some (rs ++ r).
Proof.
  intros rs s want F. induction F as [|r rs X F IH]; cbn [length repeat app expanded]; [now destruct (expanded s want)|]. rewrite IH. destruct (expanded s want) as [l|]; [|reflexivity]. cbn [obind].
  destruct (Z.eqb_spec r (-1)); [lia|]. cbn [orb]. destruct (Z.eqb_spec r 1) as [->|]; [reflexivity|]. change (1 =? 1) with true. destruct (Z.leb_spec 0 r); [|lia]. reflexivity.
Qed.
Lemma expanded_want : forall xs, Forall (fun x => 0 <= of_repeat x) xs -> Forall (fun x => 0 <= of_axis x) xs -> expanded (flat_map lift1 xs) (flat_map want1 xs) = Some (flat_map want1 xs).
Proof.
  intros xs F. induction F as [|x xs X F IH]; intros G; [reflexivity|]. inversion_clear G as [|? ? Gx Gr]. specialize (IH Gr). cbn [flat_map]. unfold lift1 at 1. unfold want1 at 1 3.
  destruct (plan_cases x X) as [(K & _ & _ & R2)|[(K & _ & N1)|(K & _ & _)]]; rewrite K; cbn [app expanded]; rewrite IH; cbn [obind].
  - rewrite R2, Z.mul_1_l, Z.eqb_refl, orb_true_r. reflexivity.
  - rewrite N1, Z.mul_1_r. destruct (Z.eqb_spec (of_repeat x) (-1)); [lia|]. cbn [orb]. destruct (Z.eqb_spec (of_repeat x) 1) as [->|]; [reflexivity|]. change (1 =? 1) with true. destruct (Z.leb_spec 0 (of_repeat x)); [|lia]. reflexivity.
  - rewrite Z.eqb_refl, orb_true_r. cbn [obind]. destruct (Z.eqb_spec (of_repeat x) (-1)); [lia|]. cbn [orb]. destruct (Z.eqb_spec (of_repeat x) 1) as [->|]; [reflexivity|]. change (1 =? 1) with true. destruct (Z.leb_spec 0 (of_repeat x)); [|lia]. reflexivity.
Qed.
Fixpoint raise (xs : list ((bool * Z) * (bool * Z))) (ix : list Z) : list Z :=
  match xs, ix with x :: xs, i :: ix => (if kept (plan x) then [i] else [i / of_axis x; i mod of_axis x]) ++ raise xs ix | _, _ => [] end.
Lemma length_raise : forall xs ix, length ix = length xs -> length (raise xs ix) = length (flat_map want1 xs).
Proof. induction xs as [|x xs IH]; intros [|i ix] L; cbn [length] in L; try lia; [reflexivity|]. cbn [raise flat_map]. unfold want1 at 1. rewrite !app_length, IH by lia. destruct (kept (plan x)); reflexivity. Qed.
Lemma merge_repeats_at : forall A xs (t : tensor A) p, Forall (fun x => 0 <= of_repeat x) xs -> sizes t = p ++ flat_map want1 xs ->
  exists u, merge_repeats (length p) (map plan xs) t = Some u /\ sizes u = p ++ map (fun x => of_repeat x * of_axis x) xs /\
            forall ip ix, length ip = length p -> length ix = length xs -> elt u (ip ++ ix) = elt t (ip ++ raise xs ix).
Proof.
  intros A xs. induction xs as [|x xs IH]; intros t p F Es; cbn [map merge_repeats flat_map raise] in *.
  - exists t. split; [reflexivity|]. split; [exact Es|]. intros ip [|] _ L; [reflexivity|discriminate].
  - inversion_clear F as [|? ? Fx Fr]. unfold want1 at 1 in Es. destruct (kept (plan x)) eqn:K.
    + destruct (IH t (p ++ [of_repeat x * of_axis x]) Fr) as (u & Eu & Su & Fu); [rewrite Es, <- app_assoc; reflexivity|]. rewrite app_length in Eu. cbn [length] in Eu. rewrite Nat.add_1_r in Eu. exists u. split; [exact Eu|]. split; [rewrite Su, <- app_assoc; reflexivity|].
      intros ip [|y ix] Lp Lx; cbn [length] in Lx; [discriminate|]. change (ip ++ y :: ix) with (ip ++ [y] ++ ix). rewrite app_assoc, Fu by (rewrite ?app_length; cbn [length]; lia). rewrite <- app_assoc. reflexivity.
    + cbn [app] in Es. destruct (flatten2_at A t p (of_repeat x) (of_axis x) (flat_map want1 xs) (Z.of_nat (length p)) (Z.of_nat (S (length p))) Es eq_refl ltac:(lia)) as (v & Ev & Sv & Fv). rewrite Ev. cbn [obind].
      destruct (IH v (p ++ [of_repeat x * of_axis x]) Fr) as (u & Eu & Su & Fu); [rewrite Sv, <- app_assoc; reflexivity|]. rewrite app_length in Eu. cbn [length] in Eu. rewrite Nat.add_1_r in Eu. exists u. split; [exact Eu|]. split; [rewrite Su, <- app_assoc; reflexivity|].
      intros ip [|y ix] Lp Lx; cbn [length] in Lx; [discriminate|]. change (ip ++ y :: ix) with (ip ++ [y] ++ ix). rewrite app_assoc, Fu by (rewrite ?app_length; cbn [length]; lia). rewrite <- app_assoc. cbn [app]. rewrite Fv by exact Lp. reflexivity.
Qed.
Lemma from_ones : forall n s ib i, length ib = n -> exists jb, from (repeat 1 n ++ s) (ib ++ i) = jb ++ from s i /\ length jb = n.
Proof. induction n as [|n IH]; intros s [|x ib] i L; cbn [length] in L; try lia; cbn [repeat app from]; [exists []; auto|]. destruct (IH s ib i ltac:(lia)) as (jb & -> & Lj). exists (0 :: jb). change (1 =? 1) with true. split; [reflexivity|cbn [length]; lia]. Qed.
Lemma length_from : forall s i, length i = length s -> length (from s i) = length s.
Proof. induction s as [|n s IH]; intros [|x i] L; cbn [length] in L; try lia; [reflexivity|]. cbn [from length]. now rewrite IH by lia. Qed.
Lemma length_lift_want : forall xs, length (flat_map lift1 xs) = length (flat_map want1 xs).
Proof. induction xs as [|x xs IH]; [reflexivity|]. cbn [flat_map]. unfold lift1 at 1. unfold want1 at 1. rewrite !app_length, IH. destruct (kept (plan x)); reflexivity. Qed.
Lemma lower_raise : forall xs ix, Forall (fun x => 0 <= of_repeat x) xs -> within (map (fun x => of_repeat x * of_axis x) xs) ix ->
  lower xs (from (flat_map lift1 xs) (raise xs ix)) = zip_with Z.modulo ix (map of_axis xs).
Proof.
  intros xs ix F. revert ix. induction F as [|x xs X F IH]; intros ix W; cbn [map] in W; [apply within_nil in W; now subst ix|]. apply within_cons in W. destruct W as (i & r & -> & Hi & W). cbn [raise flat_map map zip_with lower]. assert (L1 : lift1 x = if kept (plan x) then [of_axis x] else [1; of_axis x]) by reflexivity. rewrite !L1. clear L1.
  destruct (plan_cases x X) as [(K & _ & _ & R2)|[(K & _ & N1)|(K & _ & _)]]; rewrite K; cbn [app from]; rewrite (IH r W); f_equal.
  - rewrite R2, Z.mul_1_l in Hi. destruct (Z.eqb_spec (of_axis x) 1) as [->|]; [now rewrite Z.mod_1_r|]. now rewrite Z.mod_small.
  - rewrite N1. now rewrite Z.mod_1_r.
  - destruct (Z.eqb_spec (of_axis x) 1) as [->|]; [now rewrite Z.mod_1_r|reflexivity].
Qed.
Lemma existsb_nonneg : forall l, existsb (fun r => r <? 0) l = false <-> Forall (fun r => 0 <= r) l.
Proof.
  induction l as [|x l IH]; cbn [existsb]; [split; [constructor|reflexivity]|]. destruct (Z.ltb_spec x 0); cbn [orb]; split; intros H'; try discriminate.
  - inversion H'; lia.
  - constructor; [lia|]. now apply IH.
  - inversion_clear H'. now apply IH.
Qed.
Lemma zip_mul_ones : forall rb rs ns, zip_with Z.mul (rb ++ rs) (repeat 1 (length rb) ++ ns) = rb ++ zip_with Z.mul rs ns.
Proof. induction rb as [|r rb IH]; intros rs ns; cbn [app length repeat zip_with]; [reflexivity|]. now rewrite IH, Z.mul_1_r. Qed.
Lemma repeat_proof : forall A (t u : tensor A) static repeats, sized t -> length static = length (sizes t) -> torch_repeat t (map snd repeats) = Some u ->
  exists v, dec_repeat t static repeats = Some (Some v) /\ same v u.
Proof.
  intros A t u static repeats Zt Ls H. unfold torch_repeat in H. rewrite zlen_map in H. destruct (Z.ltb_spec (zlen repeats) (rank t)) as [|Lr]; [discriminate|]. cbn [orb] in H. destruct (existsb _ _) eqn:Ex; [discriminate|]. injection H as <-. apply existsb_nonneg in Ex.
  unfold dec_repeat. destruct (Z.gtb_spec (rank t) (zlen repeats)); [lia|]. unfold rank, zlen in *. set (b := (length repeats - length (sizes t))%nat).
  set (xs := combine (combine static (sizes t)) (skipn b repeats)). change (map (fun x => plan_axis (fst x) (snd x)) xs) with (map plan xs).
  assert (Lb : length (skipn b repeats) = length (sizes t)) by (rewrite skipn_length; lia).
  assert (Lc : length (combine static (sizes t)) = length (sizes t)) by (rewrite combine_length; lia).
  assert (Xn : map of_axis xs = sizes t). { unfold xs, of_axis. rewrite <- (map_map fst snd). clear - Ls Lb Lc. assert (G : forall U V (l : list U) (m : list V), length l = length m -> map fst (combine l m) = l /\ map snd (combine l m) = m). { induction l as [|y l IH]; intros [|z m] L; cbn [length] in L; try lia; [auto|]. cbn [combine map fst snd]. destruct (IH m ltac:(lia)) as [-> ->]. auto. } destruct (G _ _ (combine static (sizes t)) (skipn b repeats) ltac:(lia)) as [-> _]. apply G. exact Ls. }
  assert (Xr : map of_repeat xs = map snd (skipn b repeats)). { unfold xs, of_repeat. rewrite <- (map_map snd snd). f_equal. clear - Lb Lc. assert (G : forall U V (l : list U) (m : list V), length l = length m -> map snd (combine l m) = m). { induction l as [|y l IH]; intros [|z m] L; cbn [length] in L; try lia; [auto|]. cbn [combine map snd]. f_equal. apply IH. lia. } apply G. lia. }
  assert (Lx : length xs = length (sizes t)) by (rewrite <- Xn, map_length; reflexivity).
  assert (Split : map snd repeats = map snd (firstn b repeats) ++ map of_repeat xs) by (rewrite Xr, <- map_app, firstn_skipn; reflexivity).
  rewrite Split in Ex. apply Forall_app in Ex. destruct Ex as [Fb Fr]. rewrite Forall_map in Fr. pose proof Zt as Fn. unfold sized in Fn. rewrite <- Xn, Forall_map in Fn.
  set (rb := map snd (firstn b repeats)) in *. assert (Lrb : length rb = b) by (unfold rb; rewrite map_length, firstn_length; lia).
  destruct (lift_batch_at A b t [] (sizes t) eq_refl) as (a & Ea & Sa & Fa). cbn [app length] in Ea, Sa. rewrite Ea. cbn [obind].
  destruct (lift_repeats_at A xs a (repeat 1 b) b 0) as (c & Ec & Sc & Fc); [rewrite repeat_length; lia|rewrite Sa, Xn; reflexivity|]. rewrite Ec. cbn [obind].
  assert (El : lengths (Z.of_nat b) (map plan xs) c = Some (flat_map want1 xs)). { replace (Z.of_nat b) with (zlen (repeat 1 b)) by (unfold zlen; rewrite repeat_length; reflexivity). now apply lengths_at. }
  rewrite El. cbn [obind].
  assert (Ed : expand c (rb ++ flat_map want1 xs) = Some (reindex (rb ++ flat_map want1 xs) (from (sizes c)) c)).
  { unfold expand, rank, zlen. assert (Lq : length (rb ++ flat_map want1 xs) = length (sizes c)) by (rewrite Sc, !app_length, repeat_length, Lrb, length_lift_want; reflexivity). rewrite Lq, Z.ltb_irrefl, Nat.sub_diag. cbn [firstn existsb skipn app]. rewrite Sc at 1. rewrite <- Lrb, expanded_ones by exact Fb. rewrite expanded_want by auto. reflexivity. }
  rewrite Ed. cbn [obind]. set (d := reindex (rb ++ flat_map want1 xs) (from (sizes c)) c).
  destruct (merge_repeats_at A xs d rb Fr eq_refl) as (e & Ee & Se & Fe). rewrite Lrb in Ee. rewrite Ee. exists e. split; [reflexivity|].
  unfold copies, padded. rewrite map_length. fold b. rewrite Nat.sub_diag. change (repeat 1 0) with (@nil Z). cbn [app]. split.
  - cbn [sizes reindex]. rewrite Se, Split. replace (repeat 1 b) with (repeat 1 (length rb)) by (now rewrite Lrb). rewrite zip_mul_ones. f_equal. rewrite <- Xn at 1. clear. induction xs as [|x xs IH]; [reflexivity|]. cbn [map zip_with]. now rewrite IH.
  - rewrite Se. intros ix W. apply within_app in W. destruct W as (ib & i & -> & Wb & Wi). pose proof (within_length _ _ Wb) as Lib. pose proof (within_length _ _ Wi) as Lii. rewrite map_length in Lii. cbn [elt reindex].
    rewrite skipn_prefix by lia. rewrite Fe by lia. unfold d. cbn [elt reindex]. rewrite Sc. destruct (from_ones b (flat_map lift1 xs) ib (raise xs i) ltac:(lia)) as (jb & -> & Lj).
    rewrite Fc; [|rewrite repeat_length; exact Lj|apply length_from; rewrite length_lift_want; now apply length_raise]. rewrite (lower_raise xs i Fr Wi), Xn. apply (Fa [] jb); auto.
Qed.
Lemma repeat_refused : forall A (t : tensor A) static repeats, dec_repeat t static repeats = None <-> zlen repeats < rank t.
Proof. intros. unfold dec_repeat. destruct (Z.gtb_spec (rank t) (zlen repeats)); split; intros; try lia; [reflexivity|discriminate]. Qed.
Lemma tile_proof : forall A (t u : tensor A) static dims, sized t -> length static = length (sizes t) -> torch_tile t (map snd dims) = Some u ->
  exists v, dec_tile t static dims = Some (Some v) /\ same v u.
Proof.
  intros A t u static dims Zt Ls H. unfold torch_tile in H. destruct (existsb _ _) eqn:Ex; [discriminate|]. injection H as <-. unfold dec_tile. apply repeat_proof; auto.
  unfold torch_repeat. set (m := (length (sizes t) - length dims)%nat). rewrite map_app. replace (map snd (repeat (true, 1) m)) with (repeat 1 m) by (clear; induction m; cbn [repeat map snd]; congruence).
  assert (L : length (repeat 1 m ++ map snd dims) = Nat.max (length (map snd dims)) (length (sizes t))) by (rewrite app_length, repeat_length, map_length; unfold m; lia).
  assert (Zl : zlen (repeat 1 m ++ map snd dims) <? rank t = false) by (apply Z.ltb_ge; unfold zlen, rank; unfold zlen; lia). rewrite Zl. cbn [orb].
  replace (existsb (fun r => r <? 0) (repeat 1 m ++ map snd dims)) with false.
  2:{ symmetry. apply existsb_nonneg. apply Forall_app. split; [|now apply existsb_nonneg]. clear. induction m; cbn [repeat]; constructor; auto; lia. }
  rewrite L. f_equal. unfold copies. assert (P : forall n, n = Nat.max (length (map snd dims)) (length (sizes t)) -> padded n (repeat 1 m ++ map snd dims) = padded n (map snd dims)).
  { intros n ->. unfold padded. rewrite L, Nat.sub_diag. cbn [repeat app]. do 2 f_equal. rewrite map_length. unfold m. lia. }
  rewrite P by reflexivity. reflexivity.
Qed.

(** * repeat_interleave *)
Lemma expanded_keep : forall a r b, 0 <= r -> expanded (a ++ 1 :: b) (repeat (-1) (length a) ++ r :: repeat (-1) (length b)) = Some (a ++ r :: b).
Proof.
  intros a r b Hr. assert (K : forall l, expanded l (repeat (-1) (length l)) = Some l) by (induction l as [|x l IH]; [reflexivity|]; cbn [length repeat expanded]; rewrite IH; cbn [obind]; change (-1 =? -1) with true; reflexivity).
  induction a as [|x a IH]; cbn [length repeat app expanded]; [rewrite K|rewrite IH]; cbn [obind]; [|change (-1 =? -1) with true; reflexivity].
  destruct (Z.eqb_spec r (-1)); [lia|]. cbn [orb]. destruct (Z.eqb_spec r 1) as [->|]; [reflexivity|]. change (1 =? 1) with true. destruct (Z.leb_spec 0 r); [|lia]. reflexivity.
Qed.
Lemma from_within : forall s i, within s i -> from s i = i.
Proof. intros s i W. induction W as [|n x s i X W IH]; [reflexivity|]. cbn [from]. rewrite IH. destruct (Z.eqb_spec n 1) as [->|]; [|reflexivity]. f_equal. lia. Qed.
Lemma from_app : forall a ia b ib, length a = length ia -> from (a ++ b) (ia ++ ib) = from a ia ++ from b ib.
Proof. induction a as [|n a IH]; intros [|i ia] b ib L; cbn [length] in L; try lia; [reflexivity|]. cbn [app from]. now rewrite IH by lia. Qed.
Lemma expand_axis : forall A (t : tensor A) a b r, sizes t = a ++ 1 :: b -> 0 <= r ->
  exists u, expand t (put (repeat (-1) (length a + S (length b))) (length a) r) = Some u /\ sizes u = a ++ r :: b /\
            forall ia x ib, within a ia -> within b ib -> elt u (ia ++ x :: ib) = elt t (ia ++ 0 :: ib).
Proof.
  intros A t a b r Es Hr. rewrite repeat_app. cbn [repeat]. rewrite put_prefix by apply repeat_length. unfold expand, rank. rewrite Es. unfold zlen. rewrite !app_length. cbn [length]. rewrite !repeat_length, Z.ltb_irrefl, Nat.sub_diag. cbn [firstn existsb skipn app].
  rewrite expanded_keep by exact Hr. cbn [obind]. eexists. split; [reflexivity|]. cbn [sizes reindex elt]. split; [reflexivity|]. intros ia x ib Wa Wb. f_equal. rewrite from_app by (symmetry; now apply within_length). rewrite (from_within a ia Wa). cbn [from]. rewrite (from_within b ib Wb). reflexivity.
Qed.
Lemma unravel_last : forall s r i, Forall (fun n => 0 <= n) s -> 0 <= i < prodZ s * r -> 0 < r -> unravel (s ++ [r]) i = unravel s (i / r) ++ [i mod r].
Proof.
  intros s r i F Hi Hr. assert (Hd : 0 <= i / r < prodZ s) by (split; [apply Z.div_pos; lia|apply Z.div_lt_upper_bound; lia]). destruct (unravel_within s (i / r) F Hd) as [W E]. pose proof (Z.mod_pos_bound i r Hr) as M.
  assert (W' : within (s ++ [r]) (unravel s (i / r) ++ [i mod r])) by (apply within_app; eexists _, _; split; [reflexivity|]; split; [exact W|constructor; [exact M|constructor]]).
  rewrite <- (unravel_ravel _ _ W'). f_equal. rewrite ravel_app by (symmetry; now apply within_length). rewrite E. cbn [ravel]. change (prodZ [r]) with (r * 1). change (prodZ []) with 1. pose proof (Z.div_mod i r ltac:(lia)). lia.
Qed.
Lemma interleave_axis_proof : forall A (t u : tensor A) r d, sized t -> torch_repeat_interleave t r (Some d) = Some u -> exists v, dec_repeat_interleave t r (Some d) = Becomes (Some v) /\ same v u.
Proof.
  intros A t u r d Zt H. unfold torch_repeat_interleave in H. destruct (Z.ltb_spec r 0) as [|Hr]; [discriminate|]. destruct (axis (rank t) d) as [k|] eqn:Ax; [|discriminate]. cbn [obind] in H. injection H as <-.
  unfold dec_repeat_interleave. rewrite (axis_to_positive _ _ _ Ax). pose proof (axis_rank _ _ _ _ Ax) as Lk. pose proof (split_at (sizes t) k Lk) as Es. set (p := firstn k (sizes t)) in *. set (n := get (sizes t) k) in *. set (q := skipn (S k) (sizes t)) in *.
  assert (Lp : length p = k) by (unfold p; rewrite firstn_length; lia). assert (Lq : (length (sizes t) = k + S (length q))%nat) by (rewrite Es, app_length; cbn [length]; lia).
  assert (V : is_valid_dim (to_positive_dim (Z.of_nat k + 1) (rank t + 1)) (rank t + 1) = true). { unfold is_valid_dim, to_positive_dim, rank, zlen. destruct (Z.geb_spec (Z.of_nat k + 1) 0); [|lia]. destruct (Z.geb_spec (Z.of_nat k + 1) 0); [|lia]. destruct (Z.ltb_spec (Z.of_nat k + 1) (Z.of_nat (length (sizes t)) + 1)); [reflexivity|lia]. }
  rewrite V. cbn [negb]. destruct (Z.ltb_spec (Z.of_nat k + 1) 0); [lia|].
  destruct (unsqueeze_at A t (p ++ [n]) q (Z.of_nat k + 1)) as (a & Ea & Sa & Fa); [rewrite Es, <- app_assoc; reflexivity|unfold zlen; rewrite app_length; cbn [length]; lia|]. rewrite Ea. cbn [obind].
  destruct (expand_axis A a (p ++ [n]) q r Sa Hr) as (b & Eb & Sb & Fb). replace (Z.to_nat (Z.of_nat k + 1)) with (length (p ++ [n])) by (rewrite app_length; cbn [length]; lia). replace (S (length (sizes t))) with (length (p ++ [n]) + S (length q))%nat by (rewrite app_length; cbn [length]; lia).
  rewrite Eb. cbn [obind]. rewrite <- app_assoc in Sb. cbn [app] in Sb.
  destruct (collapse2_at A b p n r q (Z.of_nat k) (Z.of_nat k + 1) Sb) as (c & Ec & Sc & Fc); [unfold zlen; lia|reflexivity|]. rewrite Ec. exists c. split; [reflexivity|]. split.
  - rewrite Sc. cbn [sizes reindex]. rewrite Es, put_prefix by exact Lp. reflexivity.
  - rewrite Sc. cbn [elt reindex]. intros ix W. apply within_app in W. destruct W as (ip & r0 & -> & Wp & W). apply within_cons in W. destruct W as (i & iq & -> & Hi & Wq). pose proof (within_length _ _ Wp) as Lip.
    rewrite Fc by exact Lip. change (ip ++ i / r :: i mod r :: iq) with (ip ++ [i / r] ++ i mod r :: iq). rewrite app_assoc, Fb; [|apply within_app; exists ip, [i / r]; split; [reflexivity|]; split; [exact Wp|]; constructor; [|constructor]|exact Wq].
    + rewrite Fa by (rewrite !app_length; cbn [length]; lia). rewrite <- app_assoc. cbn [app]. rewrite get_prefix, put_prefix by lia. reflexivity.
    + assert (0 < r) by (destruct (Z.eq_dec r 0) as [Er|]; [rewrite Er, Z.mul_0_r in Hi; lia|lia]). split; [apply Z.div_pos; lia|apply Z.div_lt_upper_bound; lia].
Qed.
Lemma flatten_all : forall A (t : tensor A), sizes t <> [] -> flatten t 0 (-1) = Some (reindex [prodZ (sizes t)] (fun ix => firstn 0 ix ++ unravel (sizes t) (get ix 0) ++ skipn 1 ix) t).
Proof.
  intros A t N. unfold flatten. destruct (sizes t) as [|x s] eqn:E; [contradiction|]. rewrite <- E in *. assert (L : length (sizes t) = S (length s)) by (rewrite E; reflexivity). unfold rank, zlen.
  change 0 with (Z.of_nat 0) at 1. rewrite axis_nat by lia. cbn [obind]. assert (Ax : axis (Z.of_nat (length (sizes t))) (-1) = Some (length s)). { unfold axis. destruct (Z.leb_spec (- Z.of_nat (length (sizes t))) (-1)); [|lia]. destruct (Z.ltb_spec (-1) (Z.of_nat (length (sizes t)))); [|lia]. cbn [andb]. f_equal. change (-1 <? 0) with true. cbn match. lia. }
  rewrite Ax. cbn [obind Nat.leb]. unfold merge_sizes, spread. change (skipn 0 (sizes t)) with (sizes t). change (firstn 0 (sizes t)) with (@nil Z). rewrite Nat.sub_0_r, <- L, firstn_all, skipn_all. reflexivity.
Qed.
Lemma interleave_all_proof : forall A (t u : tensor A) r, sized t -> torch_repeat_interleave t r None = Some u -> exists v, dec_repeat_interleave t r None = Becomes (Some v) /\ same v u.
Proof.
  intros A t u r Zt H. unfold torch_repeat_interleave in H. destruct (Z.ltb_spec r 0) as [|Hr]; [discriminate|]. injection H as <-. unfold dec_repeat_interleave.
  assert (V : is_valid_dim (to_positive_dim (rank t - 1 + 1) (rank t + 1)) (rank t + 1) = true). { unfold is_valid_dim, to_positive_dim, rank, zlen. destruct (Z.geb_spec (Z.of_nat (length (sizes t)) - 1 + 1) 0); [|lia]. destruct (Z.geb_spec (Z.of_nat (length (sizes t)) - 1 + 1) 0); [|lia]. destruct (Z.ltb_spec (Z.of_nat (length (sizes t)) - 1 + 1) (Z.of_nat (length (sizes t)) + 1)); [reflexivity|lia]. }
  rewrite V. cbn [negb]. replace (rank t - 1 + 1) with (Z.of_nat (length (sizes t))) by (unfold rank, zlen; lia). destruct (Z.ltb_spec (Z.of_nat (length (sizes t))) 0); [lia|]. rewrite Nat2Z.id.
  destruct (unsqueeze_at A t (sizes t) [] (Z.of_nat (length (sizes t)))) as (a & Ea & Sa & Fa); [now rewrite app_nil_r|reflexivity|]. rewrite Ea. cbn [obind].
  destruct (expand_axis A a (sizes t) [] r Sa Hr) as (b & Eb & Sb & Fb). cbn [length] in Eb. rewrite Nat.add_1_r in Eb. rewrite Eb. cbn [obind]. rewrite flatten_all by (rewrite Sb; destruct (sizes t); discriminate).
  eexists. split; [reflexivity|]. cbn [sizes reindex elt firstn app]. assert (P : prodZ (sizes b) = prodZ (sizes t) * r) by (rewrite Sb, prodZ_app; unfold prodZ; cbn [fold_right]; ring).
  split; cbn [sizes elt reindex]; [now rewrite P|]. rewrite P. intros ix W. apply within_cons in W. destruct W as (i & r0 & -> & Hi & W). apply within_nil in W. subst r0. unfold get; cbn [nth skipn]. rewrite app_nil_r, Sb.
  pose proof (prodZ_nonneg _ Zt) as Pt. assert (Rp : 0 < r) by nia. rewrite unravel_last by auto. assert (Hd : 0 <= i / r < prodZ (sizes t)) by (split; [apply Z.div_pos; lia|apply Z.div_lt_upper_bound; lia]). destruct (unravel_within (sizes t) (i / r) Zt Hd) as [Wu _].
  rewrite Fb by (auto; constructor). rewrite (Fa (unravel (sizes t) (i / r)) 0 []) by now apply within_length. now rewrite app_nil_r.
Qed.
(** ** Counting the cumulative sums *)
Lemma count_app : forall p a b, zlen (filter (fun c => p >=? c) (a ++ b)) = zlen (filter (fun c => p >=? c) a) + zlen (filter (fun c => p >=? c) b).
Proof. intros. rewrite filter_app. unfold zlen. rewrite app_length. lia. Qed.
Lemma cumsum_above : forall l acc p, Forall (fun x => 0 <= x) l -> p < acc -> filter (fun c => p >=? c) (cumsum acc l) = [].
Proof. intros l acc p F. revert acc. induction F as [|x l X F IH]; intros acc H; cbn [cumsum filter]; [reflexivity|]. destruct (Z.geb_spec p (acc + x)); [lia|]. apply IH. lia. Qed.
Lemma interleaved_nth : forall l i acc p, Forall (fun x => 0 <= x) l -> acc <= p < acc + sumZ l ->
  nth (Z.to_nat (p - acc)) (interleaved i l) (-1) = i + zlen (filter (fun c => p >=? c) (cumsum acc l)).
Proof.
  intros l i acc p F. revert i acc. induction F as [|x l X F IH]; intros i acc H.
  - unfold sumZ in H; cbn [fold_right] in H. lia.
  - change (sumZ (x :: l)) with (x + sumZ l) in H. cbn [interleaved cumsum filter]. destruct (Z.geb_spec p (acc + x)) as [Hp|Hp].
    + rewrite app_nth2 by (rewrite repeat_length; lia). rewrite repeat_length. replace (Z.to_nat (p - acc) - Z.to_nat x)%nat with (Z.to_nat (p - (acc + x))) by lia. rewrite IH by lia. unfold zlen. cbn [length]. lia.
    + rewrite app_nth1 by (rewrite repeat_length; lia). rewrite cumsum_above by (auto; lia). unfold zlen; cbn [length]. rewrite Z.add_0_r. rewrite (nth_indep _ (-1) i) by (rewrite repeat_length; lia). apply nth_repeat.
Qed.
Lemma interleaved_length : forall l i, Forall (fun x => 0 <= x) l -> zlen (interleaved i l) = sumZ l.
Proof. intros l i F. revert i. induction F as [|x l X F IH]; intros i; [reflexivity|]. cbn [interleaved]. unfold zlen in *. rewrite app_length, repeat_length. change (sumZ (x :: l)) with (x + sumZ l). rewrite <- (IH (i + 1)). lia. Qed.
Lemma repeat_indices_proof : forall repeats, Forall (fun r => 0 <= r) repeats -> zlen repeats * sumZ repeats <= 2 ^ 20 ->
  dec_repeat_indices repeats (Some (sumZ repeats)) (sumZ repeats) = Some (interleaved 0 repeats).
Proof.
  intros l F Small. assert (N : 0 <= sumZ l) by (rewrite <- (interleaved_length l 0 F); unfold zlen; lia). unfold dec_repeat_indices. cbn [obind]. destruct (Z.ltb_spec (sumZ l) 0); [lia|]. rewrite Z.eqb_refl. cbn [orb negb].
  replace (negb (sumZ l =? 0) && (zlen l >? 2 ^ 20 / sumZ l)) with false.
  2:{ symmetry. destruct (Z.eqb_spec (sumZ l) 0); [reflexivity|]. cbn [negb andb]. rewrite Z.gtb_ltb. apply Z.ltb_ge. apply Z.div_le_lower_bound; lia. }
  f_equal. pose proof (interleaved_length l 0 F) as Ln. apply nth_ext with (d := zlen (filter (fun c => -1 >=? c) (cumsum 0 l))) (d' := -1); unfold range; rewrite map_map, map_length, seq_length; [unfold zlen in Ln; lia|].
  intros k Hk. rewrite (nth_indep _ _ ((fun i => zlen (filter (fun c => 0 + Z.of_nat i >=? c) (cumsum 0 l))) 0%nat)) by (rewrite map_length, seq_length; lia).
  rewrite (map_nth (fun i => zlen (filter (fun c => 0 + Z.of_nat i >=? c) (cumsum 0 l)))), seq_nth by lia. cbn [Nat.add].
  pose proof (interleaved_nth l 0 0 (Z.of_nat k) F ltac:(lia)) as E. rewrite Z.sub_0_r, Nat2Z.id, Z.add_0_l in E. rewrite E. reflexivity.
Qed.
