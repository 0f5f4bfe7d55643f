(** Properties C31 (view and reshape) and C32 (slices). *)
From Coq Require Import ZArith Bool Lia List.
From Verif Require Import Prelude ShapeCoreModel ShapeCoreSpec ShapeCoreProofs.
Import ListNotations.
Open Scope Z_scope.

(** ** C31 *)
Lemma numel_prod : forall s, numel s = prodZ s.
Proof.
  intros s. unfold numel. rewrite <- (Z.mul_1_l (prodZ s)). generalize 1.
  induction s as [|x s IH]; intros a; cbn [fold_left prodZ fold_right].
  - now rewrite Z.mul_1_r.
  - rewrite IH. fold (prodZ s). ring.
Qed.
(** The loop, structurally. *)
Fixpoint go (i : Z) (l : list Z) (st : Z * option Z) : option (Z * option Z) :=
  match l with
  | [] => Some st
  | d :: r =>
      do st' <- (if d =? -1 then match snd st with Some _ => None | None => Some (fst st, Some i) end
                 else if 0 <=? d then Some (fst st * d, snd st) else None);
      go (i + 1) r st'
  end.
Lemma go_loop : forall suf pre st,
  foldM (infer_step (pre ++ suf)) (zrange (zlen pre) (zlen (pre ++ suf))) st = go (zlen pre) suf st.
Proof.
  induction suf as [|d suf IH]; intros pre st.
  - rewrite app_nil_r, zrange_nil by lia. reflexivity.
  - rewrite zrange_cons by (rewrite zlen_app, zlen_cons; pose proof (zlen_nonneg _ suf); lia).
    cbn [foldM go].
    assert (E : infer_step (pre ++ d :: suf) st (zlen pre) =
      (if d =? -1 then match snd st with Some _ => None | None => Some (fst st, Some (zlen pre)) end
       else if 0 <=? d then Some (fst st * d, snd st) else None)).
    { unfold infer_step. destruct st as [a o]. rewrite pyidx_pos by apply zlen_nonneg.
      unfold zlen at 1. rewrite Nat2Z.id, nth_error_app2, Nat.sub_diag by lia. reflexivity. }
    rewrite E. clear E.
    match goal with |- obind ?c _ = _ => destruct c as [st'|]; cbn [obind]; [|reflexivity] end.
    specialize (IH (pre ++ [d]) st'). rewrite <- app_assoc in IH. simpl app in IH.
    rewrite !zlen_app, !zlen_cons, zlen_nil in *. replace (zlen pre + (1 + 0)) with (zlen pre + 1) in IH by lia.
    rewrite <- IH. reflexivity.
Qed.
Notation nonneg := (Forall (fun x => 0 <= x)).
Lemma go_some : forall l i a j a' r, go i l (a, Some j) = Some (a', r) <->
  r = Some j /\ nonneg l /\ a' = a * prodZ l.
Proof.
  induction l as [|d l IH]; intros i a j a' r; cbn [go fst snd].
  - simpl. split.
    + intros [= <- <-]. split; auto. split; auto. lia.
    + intros (-> & _ & ->). do 2 f_equal. lia.
  - destruct (Z.eqb_spec d (-1)) as [->|N]; cbn [obind].
    + split; [discriminate|]. intros (_ & H & _). inversion H; lia.
    + destruct (Z.leb_spec 0 d) as [P|P]; cbn [obind].
      * rewrite IH. cbn [prodZ fold_right]. fold (prodZ l). split.
        -- intros (-> & H & ->). split; auto. split; [constructor; auto|ring].
        -- intros (-> & H & ->). inversion H; subst. split; auto. split; auto. ring.
      * split; [discriminate|]. intros (_ & H & _). inversion H; lia.
Qed.
Lemma go_none : forall l i a a' r, go i l (a, None) = Some (a', r) <->
  match r with
  | None => nonneg l /\ a' = a * prodZ l
  | Some j => exists pre post, l = pre ++ -1 :: post /\ j = i + zlen pre /\ nonneg pre /\
      nonneg post /\ a' = a * (prodZ pre * prodZ post)
  end.
Proof.
  induction l as [|d l IH]; intros i a a' r; cbn [go fst snd].
  - split.
    + intros [= <- <-]. split; auto. simpl. lia.
    + destruct r; [|intros [_ ->]; simpl; do 2 f_equal; lia].
      intros (pre & post & H & _). destruct pre; discriminate.
  - destruct (Z.eqb_spec d (-1)) as [->|N]; cbn [obind].
    + rewrite go_some. split.
      * intros (-> & H & ->). exists [], l. repeat split; auto. { rewrite zlen_nil. lia. } simpl. lia.
      * destruct r as [j|]; [|intros [H _]; inversion H; lia].
        intros (pre & post & H & Hj & H1 & H2 & H3). destruct pre as [|p pre].
        -- simpl in H. injection H as ->. rewrite zlen_nil in Hj. repeat split; auto; [f_equal; lia|].
           simpl in H3. lia.
        -- simpl in H. injection H as <- _. inversion H1. lia.
    + destruct (Z.leb_spec 0 d) as [P|P]; cbn [obind].
      * rewrite IH. destruct r as [j|].
        -- split.
           ++ intros (pre & post & -> & -> & H1 & H2 & ->). exists (d :: pre), post.
              repeat split; auto; [rewrite zlen_cons; lia|]. cbn [prodZ fold_right]. fold (prodZ pre). ring.
           ++ intros (pre & post & H & Hj & H1 & H2 & H3). destruct pre as [|p pre]; [simpl in H; congruence|].
              simpl in H. injection H as <- ->. inversion H1; subst. exists pre, post.
              repeat split; auto; [rewrite zlen_cons; lia|]. cbn [prodZ fold_right]. fold (prodZ pre). ring.
        -- cbn [prodZ fold_right]. fold (prodZ l). split.
           ++ intros [H ->]. split; [constructor; auto|ring].
           ++ intros [H ->]. inversion H; subst. split; auto. ring.
      * split; [discriminate|]. destruct r as [j|].
        -- intros (pre & post & H & _ & H1 & _). destruct pre as [|p pre]; simpl in H; injection H as E1 E2; [lia|].
           subst. inversion H1; lia.
        -- intros [H _]. inversion H; lia.
Qed.
Lemma pyset_mid : forall (pre post : list Z) x v, pyset (pre ++ x :: post) (zlen pre) v = Some (pre ++ v :: post).
Proof.
  intros. unfold pyset. pose proof (zlen_nonneg _ pre). pose proof (zlen_nonneg _ post).
  destruct (Z.ltb_spec (zlen pre) 0); [lia|]. rewrite zlen_app, zlen_cons.
  destruct (Z.ltb_spec (zlen pre) 0); [lia|]. destruct (Z.leb_spec (zlen pre + (1 + zlen post)) (zlen pre)); [lia|].
  simpl. f_equal. unfold zlen. rewrite Nat2Z.id. clear. induction pre; simpl; f_equal; auto.
Qed.
Lemma fits_refl : forall l, nonneg l -> Forall2 fits1 l l.
Proof. induction 1; constructor; auto. right. auto. Qed.
Lemma fits_nonneg : forall l m, nonneg l -> Forall2 fits1 l m -> m = l.
Proof. induction 2; auto. inversion H; subst. f_equal; auto. destruct H0 as [[? ?]|[? ?]]; lia. Qed.
Lemma count_nonneg : forall l, nonneg l -> count_occ Z.eq_dec l (-1) = 0%nat.
Proof. induction 1; simpl; auto. destruct (Z.eq_dec x (-1)); auto; lia. Qed.
Lemma split_neg : forall l, (count_occ Z.eq_dec l (-1)%Z <= 1)%nat -> (exists m, Forall2 fits1 l m) ->
  nonneg l \/ exists pre post, l = pre ++ -1 :: post /\ nonneg pre /\ nonneg post.
Proof.
  induction l as [|x l IH]; intros C [m F]; [left; constructor|].
  inversion F as [|? y ? m' F1 F2]; subst. simpl in C. destruct (Z.eq_dec x (-1)) as [->|N].
  - right. exists [], l. repeat split; auto. assert (C0 : count_occ Z.eq_dec l (-1) = 0%nat) by lia.
    clear - C0 F2. induction F2 as [|u v l m' Hf _ IH]; constructor; simpl in C0;
      destruct (Z.eq_dec u (-1)); try lia.
    + destruct Hf; lia.
    + auto.
  - assert (0 <= x) by (destruct F1; lia). destruct (IH C (ex_intro _ m' F2)) as [H1|(pre & post & -> & H1 & H2)].
    + left. now constructor.
    + right. exists (x :: pre), post. repeat split; auto.
Qed.
(** The sizes that are given. *)
Definition known (req : list Z) : list Z := filter (fun t => negb (t =? -1)) req.
Lemma known_mid : forall pre post, nonneg pre -> nonneg post -> prodZ (known (pre ++ -1 :: post)) = prodZ pre * prodZ post.
Proof.
  assert (K : forall l, nonneg l -> known l = l).
  { induction 1; simpl; auto. destruct (Z.eqb_spec x (-1)); [lia|]. simpl. f_equal. auto. }
  intros pre post H1 H2. unfold known. rewrite filter_app. fold (known pre). rewrite K by auto.
  simpl. fold (known post). rewrite K by auto. apply prodZ_app.
Qed.
Theorem C31_view_spec : forall s req out, nonneg s ->
  (view s req = Some out <->
   view_of (prodZ s) req out /\ (In (-1) req -> prodZ (known req) <> 0)).
Proof.
  intros s req out Hs. unfold view. rewrite numel_prod. pose proof (prodZ_nonneg _ Hs) as Hn.
  set (n := prodZ s) in *. clearbody n. clear Hs s. unfold infer_size.
  pose proof (go_loop req [] (1, None)) as L. simpl app in L. rewrite zlen_nil in L. rewrite L. clear L.
  rewrite unary_spec. split.
  - destruct (go 0 req (1, None)) as [[ns inf]|] eqn:E; [|discriminate]. cbn [obind].
    apply go_none in E. destruct inf as [j|].
    + destruct E as (pre & post & -> & -> & H1 & H2 & ->). rewrite Z.add_0_l, Z.mul_1_l.
      set (q := prodZ pre * prodZ post) in *.
      assert (Hq : 0 <= q) by (apply Z.mul_nonneg_nonneg; now apply prodZ_nonneg).
      intros H.
      match type of H with (if negb ?b then _ else _) = _ => destruct b eqn:Eb; [|discriminate] end.
      cbn [negb] in H. destruct (Z.eqb_spec q 0) as [Z0|Z0]; [discriminate|].
      rewrite pyset_mid in H. injection H as <-.
      assert (Hd : n mod q = 0).
      { destruct (Z.eqb_spec n q) as [->|_]; [now rewrite Z.mod_same|]. destruct (Z.ltb_spec 0 q); [|discriminate].
        now apply Z.eqb_eq. }
      assert (Hnq : n = q * (n / q)) by (apply Z.div_exact; auto).
      split; [|intros _; rewrite known_mid; auto].
      split; [|split].
      * rewrite count_occ_app. simpl. rewrite !count_nonneg by auto. destruct (Z.eq_dec (-1) (-1)); lia.
      * apply Forall2_app; [now apply fits_refl|]. constructor; [left; split; auto; apply Z.div_pos; lia|now apply fits_refl].
      * rewrite prodZ_app. cbn [prodZ fold_right]. fold (prodZ post). rewrite Hnq at 2. unfold q. ring.
    + destruct E as [H1 ->]. rewrite Z.mul_1_l. destruct (Z.eqb_spec n (prodZ req)) as [->|]; [|discriminate].
      cbn [negb]. intros [= <-]. split; [split; [rewrite count_nonneg; auto|split; [now apply fits_refl|auto]]|].
      intros Hin. exfalso. rewrite Forall_forall in H1. specialize (H1 _ Hin). lia.
  - intros [(C & F & P) K]. destruct (split_neg req C (ex_intro _ out F)) as [H1|(pre & post & -> & H1 & H2)].
    + rewrite (proj2 (go_none req 0 1 (prodZ req) None)) by (split; auto; lia). cbn [obind].
      apply fits_nonneg in F; auto. subst out. rewrite P, Z.eqb_refl. reflexivity.
    + rewrite (proj2 (go_none _ 0 1 (prodZ pre * prodZ post) (Some (zlen pre)))).
      2: { exists pre, post. repeat split; auto; lia. }
      cbn [obind]. specialize (K ltac:(apply in_or_app; simpl; auto)). rewrite known_mid in K by auto.
      set (q := prodZ pre * prodZ post) in *.
      assert (Hq : 0 <= q) by (apply Z.mul_nonneg_nonneg; now apply prodZ_nonneg).
      apply Forall2_app_inv_l in F. destruct F as (o1 & o2 & F1 & F2 & ->). destruct o2 as [|v o3]; [now inversion F2|].
      assert (F3 : Forall2 fits1 post o3) by (now inversion F2).
      apply fits_nonneg in F1, F3; auto. subst o1 o3.
      rewrite prodZ_app in P. cbn [prodZ fold_right] in P. fold (prodZ post) in P.
      assert (E : n = q * v) by (unfold q; lia).
      assert (Ev : n / q = v) by (rewrite E, Z.mul_comm; now apply Z.div_mul).
      assert (Em : n mod q = 0) by (rewrite E, Z.mul_comm; now apply Z.mod_mul).
      destruct (Z.ltb_spec 0 q); [|lia]. rewrite Em, Z.eqb_refl.
      destruct (Z.eqb_spec n q), (Z.eqb_spec q 0); cbn [negb]; try lia; rewrite pyset_mid, Ev; reflexivity.
Qed.
Theorem C31_view_keeps_element_count : forall s req out, nonneg s ->
  view s req = Some out -> prodZ out = prodZ s.
Proof. intros s req out Hs H. apply C31_view_spec in H; auto. apply H. Qed.
Theorem C31_inferred_size_is_unique : forall n req out out',
  view_of n req out -> view_of n req out' -> prodZ (known req) <> 0 -> out = out'.
Proof.
  intros n req out out' (C & F & P) (_ & F' & P') K.
  destruct (split_neg req C (ex_intro _ out F)) as [H1|(pre & post & -> & H1 & H2)].
  - apply fits_nonneg in F, F'; congruence.
  - rewrite known_mid in K by auto.
    apply Forall2_app_inv_l in F, F'. destruct F as (o1 & o2 & F1 & F2 & ->), F' as (o1' & o2' & F1' & F2' & ->).
    inversion F2 as [|? v ? o3 V F3]; subst. inversion F2' as [|? v' ? o3' V' F3']; subst.
    apply fits_nonneg in F1, F3, F1', F3'; auto. subst.
    rewrite prodZ_app in P'. cbn [prodZ fold_right] in P'. fold (prodZ post) in P'.
    rewrite prodZ_app in P'. cbn [prodZ fold_right] in P'. fold (prodZ post) in P'.
    do 2 f_equal. nia.
Qed.
Example C31_nonvacuous : view [2; 3; 4] [-1; 6] = Some [4; 6] /\ view [2; 3] [5; -1] = None /\
  view [2; 3] [-1; -1] = None /\ view [0; 3] [0; -1] = None /\ view [0; 3] [3; -1] = Some [3; 0].
Proof. repeat split; reflexivity. Qed.

(** ** C32 *)
Lemma zrange_app : forall a b c, a <= b <= c -> zrange a c = zrange a b ++ zrange b c.
Proof.
  intros a b c H. unfold zrange. replace (Z.to_nat (c - a)) with (Z.to_nat (b - a) + Z.to_nat (c - b))%nat by lia.
  rewrite seq_app, map_app. f_equal. rewrite Nat.add_0_l.
  rewrite <- (Nat.add_0_r (Z.to_nat (b - a))) at 1. rewrite <- seq_shift_add || idtac.
  generalize (Z.to_nat (c - b)). intros m.
  replace (map (fun k : nat => b + Z.of_nat k) (seq 0 m)) with
    (map (fun k : nat => a + Z.of_nat k) (map (fun k => (Z.to_nat (b - a) + k)%nat) (seq 0 m))).
  - f_equal. clear. rewrite Nat.add_0_r. generalize (Z.to_nat (b - a)). induction m; intros n; simpl; auto.
    rewrite Nat.add_0_r. f_equal. rewrite IHm. rewrite <- seq_shift, map_map. apply map_ext. intros; lia.
  - rewrite map_map. apply map_ext. intros k. lia.
Qed.
Lemma filter_none : forall (p : Z -> bool) l, (forall x, In x l -> p x = false) -> filter p l = [].
Proof.
  induction l; simpl; intros H; auto. rewrite (H a) by auto. apply IHl. auto.
Qed.
Lemma filter_ext_in' : forall (p q : Z -> bool) l, (forall x, In x l -> p x = q x) -> filter p l = filter q l.
Proof. intros. now apply filter_ext_in. Qed.
Lemma ceil_div : forall n s, 0 < s -> (n + s - 1) / s = n / s + (if n mod s =? 0 then 0 else 1).
Proof.
  intros n s Hs. pose proof (Z.div_mod n s ltac:(lia)) as E. pose proof (Z.mod_pos_bound n s Hs) as B.
  set (q := n / s) in *. set (r := n mod s) in *. destruct (Z.eqb_spec r 0) as [Hr|Hr].
  - symmetry. apply Z.div_unique with (r := s - 1); [left; lia|nia].
  - symmetry. apply Z.div_unique with (r := r - 1); [left; lia|nia].
Qed.
Lemma count_up : forall s lo n, 0 < s ->
  zlen (filter (fun i => (i - lo) mod s =? 0) (zrange lo (lo + Z.of_nat n))) = (Z.of_nat n + s - 1) / s.
Proof.
  intros s lo n Hs. induction n as [|n IH].
  - rewrite zrange_nil by lia. rewrite ceil_div by auto. reflexivity.
  - replace (lo + Z.of_nat (S n)) with (lo + Z.of_nat n + 1) by lia. rewrite zrange_snoc by lia.
    rewrite filter_app, zlen_app, IH. cbn [filter].
    replace (lo + Z.of_nat n - lo) with (Z.of_nat n) by lia.
    replace (Z.of_nat (S n) + s - 1) with (Z.of_nat n + 1 * s) by lia. rewrite Z.div_add by lia.
    rewrite ceil_div by auto. destruct (Z.of_nat n mod s =? 0); [rewrite zlen_cons, zlen_nil|rewrite zlen_nil]; lia.
Qed.
Lemma count_down : forall s lo n, 0 < s ->
  zlen (filter (fun i => (lo - i) mod s =? 0) (zrange (lo + 1 - Z.of_nat n) (lo + 1))) = (Z.of_nat n + s - 1) / s.
Proof.
  intros s lo n Hs. induction n as [|n IH].
  - rewrite zrange_nil by lia. rewrite ceil_div by auto. reflexivity.
  - rewrite zrange_cons by lia. cbn [filter].
    replace (lo + 1 - Z.of_nat (S n) + 1) with (lo + 1 - Z.of_nat n) by lia.
    replace (lo - (lo + 1 - Z.of_nat (S n))) with (Z.of_nat n) by lia.
    replace (Z.of_nat (S n) + s - 1) with (Z.of_nat n + 1 * s) by lia. rewrite Z.div_add by lia.
    rewrite ceil_div in IH by auto.
    destruct (Z.of_nat n mod s =? 0); rewrite ?zlen_cons, IH; lia.
Qed.
Lemma count_slice_up : forall d s lo hi, 0 < s -> 0 <= lo -> hi <= d -> lo <= d ->
  zlen (filter (fun i => (lo <=? i) && (i <? hi) && ((i - lo) mod s =? 0)) (zrange 0 d)) =
  (Z.max 0 (hi - lo) + s - 1) / s.
Proof.
  intros d s lo hi Hs Hl Hh Hd. destruct (Z.le_gt_cases hi lo) as [C|C].
  - rewrite filter_none. { rewrite zlen_nil, Z.max_l by lia. rewrite ceil_div by auto. reflexivity. }
    intros x _. destruct (Z.leb_spec lo x), (Z.ltb_spec x hi); simpl; auto. lia.
  - rewrite (zrange_app 0 lo d), (zrange_app lo hi d), !filter_app, !zlen_app by lia.
    rewrite (filter_none _ (zrange 0 lo)), (filter_none _ (zrange hi d)).
    + rewrite zlen_nil, Z.max_r by lia. rewrite <- (Z2Nat.id (hi - lo)) by lia. rewrite <- (count_up s lo) by auto.
      rewrite Z2Nat.id by lia. replace (lo + (hi - lo)) with hi by lia.
      rewrite (filter_ext_in _ (fun i => (i - lo) mod s =? 0)); [lia|].
      intros x Hx. apply in_zrange in Hx. destruct (Z.leb_spec lo x), (Z.ltb_spec x hi); simpl; auto; lia.
    + intros x Hx. apply in_zrange in Hx. destruct (Z.leb_spec lo x), (Z.ltb_spec x hi); simpl; auto; lia.
    + intros x Hx. apply in_zrange in Hx. destruct (Z.leb_spec lo x), (Z.ltb_spec x hi); simpl; auto; lia.
Qed.
Lemma count_slice_down : forall d s lo hi, 0 < s -> -1 <= hi -> lo <= d - 1 -> hi <= d - 1 ->
  zlen (filter (fun i => (hi <? i) && (i <=? lo) && ((lo - i) mod s =? 0)) (zrange 0 d)) =
  (Z.max 0 (lo - hi) + s - 1) / s.
Proof.
  intros d s lo hi Hs Hl Hh Hd. destruct (Z.le_gt_cases lo hi) as [C|C].
  - rewrite filter_none. { rewrite zlen_nil, Z.max_l by lia. rewrite ceil_div by auto. reflexivity. }
    intros x _. destruct (Z.ltb_spec hi x), (Z.leb_spec x lo); simpl; auto. lia.
  - rewrite (zrange_app 0 (hi + 1) d), (zrange_app (hi + 1) (lo + 1) d), !filter_app, !zlen_app by lia.
    rewrite (filter_none _ (zrange 0 (hi + 1))), (filter_none _ (zrange (lo + 1) d)).
    + rewrite zlen_nil, Z.max_r by lia. rewrite <- (Z2Nat.id (lo - hi)) by lia. rewrite <- (count_down s lo) by auto.
      rewrite Z2Nat.id by lia. replace (lo + 1 - (lo - hi)) with (hi + 1) by lia.
      rewrite (filter_ext_in _ (fun i => (lo - i) mod s =? 0)); [lia|].
      intros x Hx. apply in_zrange in Hx. destruct (Z.ltb_spec hi x), (Z.leb_spec x lo); simpl; auto; lia.
    + intros x Hx. apply in_zrange in Hx. destruct (Z.ltb_spec hi x), (Z.leb_spec x lo); simpl; auto; lia.
    + intros x Hx. apply in_zrange in Hx. destruct (Z.ltb_spec hi x), (Z.leb_spec x lo); simpl; auto; lia.
Qed.
Lemma slice_up_spec : forall self dim k d start stop step,
  denotes (length self) dim k -> nth_error self k = Some d -> 0 <= d -> 0 < step -> start <> max_int ->
  slice_up self dim (Some start) (Some stop) step =
  Some (set_nth k ((Z.max 0 (clamp 0 d (resolve_bound d stop) - clamp 0 d (resolve_bound d start)) + step - 1) / step) self).
Proof.
  intros self dim k d start stop step Hk Hd Hd0 Hs Hm. unfold slice_up.
  assert (Hne : self <> []) by (destruct self; [destruct k; discriminate|discriminate]).
  destruct (Z.eqb_spec (zlen self) 0) as [E|_]; [destruct self; [congruence|rewrite zlen_cons in E; pose proof (zlen_nonneg _ self); lia]|].
  rewrite (proj2 (wrap_denotes dim self (Z.of_nat k) Hne)) by eauto. cbn [obind].
  destruct (Z.leb_spec step 0); [lia|]. rewrite pyidx_nat, Hd. cbn [obind].
  destruct (Z.eqb_spec start max_int); [contradiction|]. rewrite unary_spec. cbn [obind].
  unfold pyset. assert (Hk2 : (k < length self)%nat) by apply Hk.
  destruct (Z.ltb_spec (Z.of_nat k) 0); [lia|]. destruct (Z.ltb_spec (Z.of_nat k) 0); [lia|].
  destruct (Z.leb_spec (zlen self) (Z.of_nat k)); [unfold zlen in *; lia|]. cbn [orb].
  rewrite Nat2Z.id. do 4 f_equal. unfold clamp, resolve_bound.
  destruct (Z.ltb_spec start 0), (Z.ltb_spec stop 0);
  repeat match goal with |- context [if ?a <? ?b then _ else _] => destruct (Z.ltb_spec a b) end;
  repeat match goal with |- context [if ?a <=? ?b then _ else _] => destruct (Z.leb_spec a b) end;
  repeat match goal with |- context [if ?a <? ?b then _ else _] => destruct (Z.ltb_spec a b) end; lia.
Qed.
Theorem C32_positive_step_counts_indices : forall self dim k d start stop step,
  denotes (length self) dim k -> nth_error self k = Some d -> 0 <= d <= max_int -> 0 < step ->
  start <> Some max_int ->
  slice_Tensor self dim start stop step =
  Some (set_nth k (zlen (py_slice_indices d start stop step)) self).
Proof.
  intros self dim k d start stop step Hk Hd Hd0 Hs Hm. unfold slice_Tensor.
  destruct (Z.ltb_spec step 0); [lia|]. assert (Hm' : match start with Some s => s | None => 0 end <> max_int) by (destruct start; [congruence|discriminate]).
  rewrite (slice_up_spec _ _ k d) by (auto; lia).
  do 2 f_equal. unfold py_slice_indices. destruct (Z.ltb_spec 0 step); [|lia].
  rewrite count_slice_up; auto.
  - do 3 f_equal. destruct start as [x|], stop as [y|]; unfold clamp, resolve_bound;
    repeat match goal with |- context [if ?a <? ?b then _ else _] => destruct (Z.ltb_spec a b) end; unfold max_int in *; lia.
  - destruct start; unfold clamp; lia.
  - destruct stop; unfold clamp; lia.
  - destruct start; unfold clamp; lia.
Qed.
Theorem C32_negative_step_counts_indices_partial : forall self dim k d start stop step,
  denotes (length self) dim k -> nth_error self k = Some d -> 0 <= d -> step < 0 ->
  - d <= start < max_int - 1 -> stop < max_int - 1 -> d < max_int ->
  slice_Tensor self dim (Some start) (Some stop) step =
  Some (set_nth k (zlen (py_slice_indices d (Some start) (Some stop) step)) self).
Proof.
  intros self dim k d start stop step Hk Hd Hd0 Hs H1 H2 H3. unfold slice_Tensor.
  destruct (Z.ltb_spec step 0); [|lia].
  assert (E : pyidx self dim = Some d).
  { destruct Hk as [Hlt [-> | ->]].
    - now rewrite pyidx_nat.
    - unfold pyidx, zlen. destruct (Z.ltb_spec (Z.of_nat k - Z.of_nat (length self)) 0); [|lia].
      destruct (Z.ltb_spec (Z.of_nat k - Z.of_nat (length self) + Z.of_nat (length self)) 0); [lia|].
      rewrite <- Hd. f_equal. lia. }
  rewrite E. cbn [obind]. rewrite (slice_up_spec _ _ k d); auto; try lia.
  - do 2 f_equal. unfold py_slice_indices. destruct (Z.ltb_spec 0 step); [lia|].
    rewrite count_slice_down; try (unfold clamp; lia).
    do 3 f_equal. unfold clamp, resolve_bound.
    repeat match goal with |- context [if ?a <? ?b then _ else _] => destruct (Z.ltb_spec a b) end; lia.
  - repeat match goal with |- context [if ?a <? ?b then _ else _] => destruct (Z.ltb_spec a b) end; lia.
Qed.
(** Starts below the range, and the default start, are taken to be index 0. *)
Theorem C32_negative_step_start_below_range_refuted : exists d start stop step,
  step < 0 /\ slice_Tensor [d] 0 (Some start) (Some stop) step = Some [1] /\
  py_slice_indices d (Some start) (Some stop) step = [].
Proof. exists 5, (-7), (-9), (-1). repeat split; reflexivity. Qed.
Theorem C32_negative_step_default_start_refuted : exists d stop step,
  step < 0 /\ slice_Tensor [d] 0 None (Some stop) step = Some [1] /\
  zlen (py_slice_indices d None (Some stop) step) = 5.
Proof. exists 5, (-6), (-1). repeat split; reflexivity. Qed.
(** A start of INT64_MAX is read as "no start". *)
Theorem C32_start_max_int_refuted : exists d,
  slice_Tensor [d] 0 (Some max_int) None 1 = Some [d] /\
  py_slice_indices d (Some max_int) None 1 = [] /\ d <> 0.
Proof. exists 3. split; [reflexivity|split; [reflexivity|lia]]. Qed.
Theorem C32_invalid_slices_rejected : forall self dim start stop step,
  self = [] \/ step = 0 \/ ~ (- zlen self <= dim < zlen self) ->
  slice_Tensor self dim start stop step = None.
Proof.
  intros self dim start stop step H. unfold slice_Tensor.
  assert (U : forall a b st, self = [] \/ st = 0 \/ ~ (- zlen self <= dim < zlen self) -> slice_up self dim a b st = None).
  { intros a b st G. unfold slice_up. destruct (Z.eqb_spec (zlen self) 0); auto.
    destruct (wrap_dim dim (zlen self)) as [w|] eqn:E; cbn [obind]; auto.
    apply wrap_spec in E. cbv zeta in E. pose proof (zlen_nonneg _ self).
    destruct G as [->|[->|G]]; [rewrite zlen_nil in *; lia| |lia]. simpl. reflexivity. }
  destruct (Z.ltb_spec step 0).
  - destruct (pyidx self dim); cbn [obind]; auto. apply U. intuition lia.
  - apply U. auto.
Qed.
Example C32_nonvacuous : slice_Tensor [10; 7] (-1) (Some 1) (Some (-1)) 2 = Some [10; 3] /\
  py_slice_indices 7 (Some 1) (Some (-1)) 2 = [1; 3; 5] /\
  slice_Tensor [7] 0 (Some 5) (Some 0) (-2) = Some [3] /\ denotes 2 (-1) 1.
Proof. split; [reflexivity|split; [reflexivity|split; [reflexivity|unfold denotes; lia]]]. Qed.

Print Assumptions C31_view_spec.
Print Assumptions C31_inferred_size_is_unique.
Print Assumptions C32_positive_step_counts_indices.
Print Assumptions C32_negative_step_counts_indices_partial.
Print Assumptions C32_invalid_slices_rejected.
