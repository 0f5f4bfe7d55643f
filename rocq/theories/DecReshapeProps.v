(** C107 and C108: decompositions that reshape or repeat tensors, against what PyTorch's operator computes. *)
From Coq Require Import ZArith List Lia Bool.
From Verif Require Import Prelude TensorOps DecMoveModel DecMoveProofs DecReshapeModel DecReshapeSpec DecReshapeProofs.
Import ListNotations.
Open Scope Z_scope.

(** * C107: views and shuffles *)
Theorem C107_flatten_is_flatten : forall A (t u : tensor A) start stop, sized t -> flatten t start stop = Some u -> outside t start stop <> 0 ->
  exists v, dec_flatten t start stop = Becomes (Some v) /\ same v u.
Proof. intros A t u start stop Zt H N. pose proof (flatten_proof A t u start stop Zt H) as P. destruct (Z.eqb_spec (outside t start stop) 0); [contradiction|exact P]. Qed.
(** If an axis that is kept has size 0, the view cannot find the size that is left to it. *)
Theorem C107_flatten_of_an_empty_tensor_refuted : forall A (t u : tensor A) start stop, sized t -> flatten t start stop = Some u -> outside t start stop = 0 ->
  dec_flatten t start stop = Becomes None.
Proof. intros A t u start stop Zt H N. pose proof (flatten_proof A t u start stop Zt H) as P. rewrite N in P. exact P. Qed.
Theorem C107_flatten_refuses_axes_in_the_wrong_order : forall A (t : tensor A) start stop a b, axis (rank t) start = Some a -> axis (rank t) stop = Some b ->
  (dec_flatten t start stop = NoMatch <-> (b < a)%nat).
Proof.
  intros A t start stop a b Aa Ab. unfold dec_flatten. rewrite (axis_to_positive _ _ _ Aa), (axis_to_positive _ _ _ Ab). pose proof (axis_lt _ _ _ Aa). destruct (Z.eqb_spec (rank t) 0); [lia|]. destruct (Z.gtb_spec (Z.of_nat a) (Z.of_nat b)); split; intros; try lia; [reflexivity|discriminate].
Qed.
(** An axis past the last one is not noticed. *)
Theorem C107_flatten_past_the_end_refuted : forall A (t : tensor A) stop, sized t -> 0 < rank t <= stop ->
  flatten t 0 stop = None /\ exists v, dec_flatten t 0 stop = Becomes (Some v) /\ sizes v = [prodZ (sizes t)].
Proof.
  intros A t stop Zt H. split.
  - unfold flatten. destruct (sizes t) as [|x s] eqn:E; [unfold rank in H; rewrite E in H; change (zlen []) with 0 in H; lia|]. rewrite <- E. assert (Ax : axis (rank t) stop = None). { unfold axis. destruct (Z.ltb_spec stop (rank t)); [lia|]. now rewrite andb_false_r. } rewrite Ax. now destruct (axis (rank t) 0).
  - unfold dec_flatten, to_positive_dim. destruct (Z.eqb_spec (rank t) 0); [lia|]. change (0 >=? 0) with true. cbn match. destruct (Z.geb_spec stop 0); [|lia]. destruct (Z.gtb_spec 0 stop); [lia|]. unfold range. replace (Z.to_nat (rank t - (stop + 1))) with O by lia. change (Z.to_nat (0 - 0)) with O. cbn [seq map mapM obind app].
    unfold view. pose proof (infer_one [] [] (prodZ (sizes t)) (Forall_nil _) (Forall_nil _) ltac:(cbn; lia)) as I1. change (prodZ []) with 1 in I1. rewrite Z.mul_1_l, Z.mul_1_r in I1. cbn [app] in I1. rewrite I1. cbn [obind]. eexists. split; reflexivity.
Qed.
Theorem C107_unflatten_is_unflatten : forall A (t u : tensor A) static dim ss, sized t -> ~ In 0 ss -> (static = true \/ ~ In (-1) ss) -> torch_unflatten t dim ss = Some u ->
  exists v, dec_unflatten t static dim ss = Becomes (Some v) /\ same v u.
Proof. exact unflatten_proof. Qed.
(** The compiler divides by each given size. *)
Theorem C107_unflatten_into_no_elements_refuted : forall A (t : tensor A) k ss, (k < length (sizes t))%nat -> In 0 ss -> minus_ones ss <= 1 ->
  dec_unflatten t true (Z.of_nat k) ss = Undefined.
Proof.
  intros A t k ss L I0 M. unfold dec_unflatten. destruct (Z.gtb_spec (minus_ones ss) 1); [lia|]. unfold to_positive_dim, is_valid_dim, rank, zlen. destruct (Z.geb_spec (Z.of_nat k) 0); [|lia]. destruct (Z.geb_spec (Z.of_nat k) 0); [|lia]. destruct (Z.ltb_spec (Z.of_nat k) (Z.of_nat (length (sizes t)))); [|lia]. cbn [andb negb]. now rewrite divided_zero.
Qed.
(** The product of the sizes is only compared with the whole tensor. *)
Theorem C107_unflatten_unchecked_refuted : forall A (f : list Z -> A), let t := {| sizes := [0; 6]; elt := f |} in
  torch_unflatten t 1 [4; 5] = None /\ exists v, dec_unflatten t true 1 [4; 5] = Becomes (Some v) /\ sizes v = [0; 4; 5].
Proof. intros A f t. split; [reflexivity|]. eexists. split; reflexivity. Qed.
Theorem C107_pixel_shuffle_is_pixel_shuffle : forall A (t u : tensor A) r, get (sizes t) (length (sizes t) - 3) <> 0 -> sized t -> torch_pixel_shuffle t r = Some u ->
  exists v, dec_pixel_shuffle t r = Some (Some v) /\ same v u.
Proof. exact pixel_shuffle_proof. Qed.
Theorem C107_pixel_shuffle_of_no_channels_refuted : forall A (t : tensor A) r, 3 <= rank t -> 0 < r -> get (sizes t) (length (sizes t) - 3) = 0 ->
  dec_pixel_shuffle t r = Some None /\ exists u, torch_pixel_shuffle t r = Some u.
Proof.
  intros A t r R3 Hr E. split; [now apply pixel_shuffle_empty|]. unfold torch_pixel_shuffle. rewrite E. destruct (Z.ltb_spec (rank t) 3); [lia|]. destruct (Z.leb_spec r 0); [lia|]. cbn [orb]. rewrite Z.mod_0_l by nia. change (0 =? 0) with true. cbn [negb]. eauto.
Qed.
(** Six channels are not a number of squares of four. *)
Theorem C107_pixel_shuffle_unchecked_refuted : forall A (f : list Z -> A), let t := {| sizes := [6; 1; 1]; elt := f |} in
  torch_pixel_shuffle t 2 = None /\ exists v, dec_pixel_shuffle t 2 = Some (Some v) /\ sizes v = [1; 2; 3].
Proof. intros A f t. split; [reflexivity|]. eexists. split; reflexivity. Qed.
Theorem C107_pixel_unshuffle_is_pixel_unshuffle : forall A (t u : tensor A) r, get (sizes t) (length (sizes t) - 2) <> 0 -> get (sizes t) (length (sizes t) - 1) <> 0 -> sized t -> torch_pixel_unshuffle t r = Some u ->
  exists v, dec_pixel_unshuffle t r = Some (Some v) /\ same v u.
Proof. exact pixel_unshuffle_proof. Qed.
Theorem C107_pixel_unshuffle_of_no_rows_refuted : forall A (t : tensor A) r, 3 <= rank t -> get (sizes t) (length (sizes t) - 2) = 0 -> dec_pixel_unshuffle t r = Some None.
Proof.
  intros A t r R3 E. unfold dec_pixel_unshuffle. destruct (Z.ltb_spec (rank t) 3); [lia|]. unfold rank, zlen in *. replace (Z.of_nat (length (sizes t)) - 3 + 1) with (Z.of_nat (length (sizes t) - 2)) by lia. replace (Z.of_nat (length (sizes t)) - 3 + 2) with (Z.of_nat (length (sizes t) - 1)) by lia.
  rewrite !size_int_nat by lia. cbn [obind]. rewrite E. destruct (Z.eqb_spec r 0); [reflexivity|]. cbn [obind]. rewrite Z.div_0_l by assumption. now rewrite split_by_zero.
Qed.
(** Shuffling into r by r squares and back. *)
Theorem C107_pixel_unshuffle_undoes_pixel_shuffle : forall A (t u : tensor A) r, sized t -> torch_pixel_shuffle t r = Some u -> exists v, torch_pixel_unshuffle u r = Some v /\ same v t.
Proof.
  intros A t u r Zt H. unfold torch_pixel_shuffle in H. destruct (Z.ltb_spec (rank t) 3) as [|R3]; [discriminate|]. destruct (Z.leb_spec r 0) as [|Rp]; [discriminate|]. cbn [orb] in H. unfold rank, zlen in *. destruct (last_three (sizes t) ltac:(lia)) as [Es Lp]. set (n := (length (sizes t) - 3)%nat) in *.
  pose proof (sized_get A t n Zt) as C0. set (c := get (sizes t) n) in *. set (h := get (sizes t) (n + 1)) in *. set (w := get (sizes t) (n + 2)) in *. set (p := firstn n (sizes t)) in *.
  destruct (Z.eqb_spec (c mod (r * r)) 0) as [M|]; [|discriminate]. cbn [negb] in H. injection H as <-. set (o := c / (r * r)). assert (Ec : c = r * r * o) by (unfold o; pose proof (Z.div_mod c (r * r) ltac:(nia)); lia). clearbody c h w o. 
  unfold torch_pixel_unshuffle. cbn [sizes reindex]. unfold rank, zlen. cbn [sizes reindex]. rewrite app_length, Lp. cbn [length]. replace (n + 3 - 3)%nat with n by lia. destruct (Z.ltb_spec (Z.of_nat (n + 3)) 3); [lia|]. destruct (Z.leb_spec r 0); [lia|]. cbn [orb].
  assert (G0 : forall x y z (l : list Z), length l = n -> get (l ++ [x; y; z]) n = x /\ get (l ++ [x; y; z]) (n + 1) = y /\ get (l ++ [x; y; z]) (n + 2) = z /\ firstn n (l ++ [x; y; z]) = l).
  { intros x y z l L. split; [now apply get_prefix|]. split; [rewrite <- L; apply get_app_right|]. split; [rewrite <- L; apply get_app_right|now apply firstn_prefix]. }
  destruct (G0 o (h * r) (w * r) p Lp) as (-> & -> & -> & ->). rewrite !Z.mod_mul, !Z.div_mul by lia. change (0 =? 0) with true. cbn [negb orb]. eexists. split; [reflexivity|]. split.
  - cbn [sizes reindex]. rewrite Es. do 2 f_equal. lia.
  - cbn [sizes reindex elt]. intros ix W. apply within_app in W. destruct W as (ip & i3 & -> & Wp & W3).
    apply within_cons in W3. destruct W3 as (x & i2 & -> & X & W2). apply within_cons in W2. destruct W2 as (y & i1 & -> & Y & W1). apply within_cons in W1. destruct W1 as (z & i0 & -> & Hz & W0). apply within_nil in W0. subst i0. pose proof (within_length _ _ Wp) as Li. rewrite Lp in Li.
    destruct (G0 x y z ip Li) as (-> & -> & -> & ->). f_equal. set (q := x mod (r * r)). assert (Q : 0 <= q < r * r) by (apply Z.mod_pos_bound; nia). assert (E : x = r * r * (x / (r * r)) + q) by (apply Z.div_mod; nia). set (m := x / (r * r)) in *. clearbody q m.
    destruct (G0 m (y * r + q / r) (z * r + q mod r) ip Li) as (-> & -> & -> & ->). assert (Q1 : 0 <= q / r < r) by (split; [apply Z.div_pos; lia|apply Z.div_lt_upper_bound; lia]). assert (Q2 : 0 <= q mod r < r) by (apply Z.mod_pos_bound; lia). assert (E2 : q = r * (q / r) + q mod r) by (apply Z.div_mod; lia).
    set (q1 := q / r) in *. set (q2 := q mod r) in *. clearbody q1 q2. rewrite !(Z.add_comm (_ * r)), !Z.mod_add, !Z.div_add, !Z.mod_small, !Z.div_small by lia.  rewrite !Z.add_0_l. do 2 f_equal. rewrite E, E2. ring.
Qed.
(** What channel_shuffle becomes: the shuffle for C/g groups, which undoes the one for g groups. *)
Theorem C107_channel_shuffle_uses_the_wrong_groups_refuted : forall A (t : tensor A) g, 3 <= rank t -> 0 < g -> 0 < get (sizes t) 1 -> get (sizes t) 1 mod g = 0 ->
  exists v u, dec_channel_shuffle t g = Some (Some v) /\ torch_channel_shuffle t (get (sizes t) 1 / g) = Some u /\ same v u.
Proof. exact channel_shuffle_proof. Qed.
(** So it is right, for tensors whose elements are all different, only for one group, groups of one channel, or as many groups as channels in a group. *)
Theorem C107_channel_shuffle_partial : forall A (t u : tensor A) g, 3 <= rank t -> Forall (fun n => 0 < n) (sizes t) -> torch_channel_shuffle t g = Some u ->
  (forall i j, within (sizes t) i -> within (sizes t) j -> elt t i = elt t j -> i = j) ->
  exists v, dec_channel_shuffle t g = Some (Some v) /\ (same v u <-> g = 1 \/ g = get (sizes t) 1 \/ g * g = get (sizes t) 1).
Proof.
  intros A t u g R3 Pos H Inj. unfold torch_channel_shuffle in H. destruct (Z.ltb_spec (rank t) 3); [lia|]. destruct (Z.leb_spec g 0); [discriminate|]. cbn [orb] in H. destruct (Z.eqb_spec (get (sizes t) 1 mod g) 0) as [M|]; [|discriminate]. cbn [negb] in H. injection H as <-.
  assert (exists n c rest, sizes t = n :: c :: rest) as (n & c & rest & Es). { unfold rank, zlen in R3. destruct (sizes t) as [|n [|c rest]]; cbn [length] in R3; try lia. eauto. }
  assert (Hc : get (sizes t) 1 = c) by (rewrite Es; reflexivity). rewrite Hc in *. assert (Pc : 0 < c /\ 0 < n /\ Forall (fun x => 0 < x) rest) by (rewrite Es in Pos; inversion_clear Pos as [|? ? P1 P2]; inversion_clear P2; auto). destruct Pc as (Pc & Pn & Pr).
  destruct (channel_shuffle_proof A t g R3 ltac:(lia) ltac:(lia) ltac:(rewrite Hc; exact M)) as (v & w & Ev & Ew & Sv). exists v. split; [exact Ev|]. rewrite Hc in Ew.
  assert (Ec : c = g * (c / g)) by (pose proof (Z.div_mod c g ltac:(lia)); lia). set (o := c / g) in *. clearbody o. assert (Ho : 0 < o) by nia. unfold torch_channel_shuffle in Ew. destruct (Z.ltb_spec (rank t) 3); [lia|]. destruct (Z.leb_spec o 0); [lia|]. rewrite Hc in Ew. cbn [orb] in Ew.
  assert (Mo : c mod o = 0) by (rewrite Ec; apply Z.mod_mul; lia). assert (Do : c / o = g) by (rewrite Ec; apply Z.div_mul; lia). rewrite Mo, Do in Ew. change (0 =? 0) with true in Ew. cbn [negb] in Ew. injection Ew as <-.
  assert (Bound : forall a b y, 0 < a -> 0 < b -> 0 <= y < a * b -> 0 <= (y mod a) * b + y / a < a * b). { intros a b y Ha Hb Hy. pose proof (Z.mod_pos_bound y a Ha). assert (0 <= y / a < b) by (split; [apply Z.div_pos; lia|apply Z.div_lt_upper_bound; lia]). generalize dependent (y mod a). generalize dependent (y / a). intros. nia. }
  assert (Zr : within rest (repeat 0 (length rest))) by (clear - Pr; induction Pr; cbn [length repeat]; constructor; auto; lia).
  split.
  - intros Suv. destruct (Z.eq_dec g 1) as [|G1]; [auto|]. destruct (Z.eq_dec o 1) as [->|O1]; [right; left; lia|]. right. right.
    assert (Sw : same (reindex (sizes t) (fun ix => put ix 1 (get ix 1 mod o * g + get ix 1 / o)) t) (reindex (sizes t) (fun ix => put ix 1 (get ix 1 mod g * o + get ix 1 / g)) t)) by (eapply same_trans; [apply same_sym; exact Sv|exact Suv]).
    destruct Sw as [_ Sw]. cbn [sizes reindex elt] in Sw. specialize (Sw (0 :: 1 :: repeat 0 (length rest))). rewrite Es in Sw. assert (Wi : within (n :: c :: rest) (0 :: 1 :: repeat 0 (length rest))) by (constructor; [lia|]; constructor; [nia|exact Zr]).
    specialize (Sw Wi). unfold get in Sw; cbn [nth put] in Sw. rewrite !Z.mod_small, !Z.div_small, !Z.mul_1_l, !Z.add_0_r in Sw by lia. apply Inj in Sw; [injection Sw as E; rewrite Ec; nia| |]; rewrite Es; constructor; try lia; constructor; try exact Zr; nia.
  - intros Cases. eapply same_trans; [exact Sv|]. apply reindex_same. intros ix W. rewrite Es in W. apply within_cons in W. destruct W as (x & i1 & -> & X & W). apply within_cons in W. destruct W as (y & ir & -> & Y & W). unfold get; cbn [nth put]. do 2 f_equal.
    assert (One : y mod 1 * c + y / 1 = y) by (rewrite Z.mod_1_r, Z.div_1_r; lia). assert (All : y mod c * 1 + y / c = y) by (rewrite Z.mod_small, Z.div_small by lia; lia).
    destruct Cases as [->|[->|E]].
    + assert (o = c) by lia. subst o. rewrite All, One. reflexivity.
    + assert (o = 1) by nia. subst o. rewrite All, One. reflexivity.
    + assert (o = g) by nia. subst o. reflexivity.
Qed.
Definition shown (t : option (tensor Z)) (ixs : list (list Z)) : option (list Z * list Z) := do u <- t; Some (sizes u, map (elt u) ixs).
Definition numbered (s : list Z) : tensor Z := {| sizes := s; elt := ravel s |}.
Example C107_nonvacuous :
  match dec_flatten (numbered [2; 3; 4]) 1 (-1) with Becomes x => shown x [[1; 5]] = Some ([2; 12], [17]) | _ => False end /\
  match dec_unflatten (numbered [2; 12]) true (-1) [3; -1; 2] with Becomes x => shown x [[1; 2; 1; 0]] = Some ([2; 3; 2; 2], [22]) | _ => False end /\
  (exists x, dec_pixel_shuffle (numbered [4; 2; 2]) 2 = Some x /\ shown x [[0; 1; 0]; [0; 3; 2]] = Some ([1; 4; 4], [8; 11])) /\
  (exists x, dec_pixel_unshuffle (numbered [1; 4; 4]) 2 = Some x /\ shown x [[2; 1; 1]] = Some ([4; 2; 2], [14])) /\
  (exists x, dec_channel_shuffle (numbered [1; 6; 1]) 2 = Some x /\ shown x [[0; 1; 0]] = Some ([1; 6; 1], [2])) /\
  shown (torch_channel_shuffle (numbered [1; 6; 1]) 2) [[0; 1; 0]] = Some ([1; 6; 1], [3]) /\
  shown (torch_unflatten (numbered [0; 2]) 0 [0; 3]) [] = Some ([0; 3; 2], []).
Proof. split; [reflexivity|]. split; [reflexivity|]. split; [eexists; split; reflexivity|]. split; [eexists; split; reflexivity|]. split; [eexists; split; reflexivity|]. split; reflexivity. Qed.

(** * C108: repeats *)
Theorem C108_repeat_is_repeat : forall A (t u : tensor A) static repeats, sized t -> length static = length (sizes t) -> torch_repeat t (map snd repeats) = Some u ->
  exists v, dec_repeat t static repeats = Some (Some v) /\ same v u.
Proof. exact repeat_proof. Qed.
Theorem C108_repeat_refuses_too_few_repeats : forall A (t : tensor A) static repeats, dec_repeat t static repeats = None <-> zlen repeats < rank t.
Proof. exact repeat_refused. Qed.
(** A repeat of -1 is taken to be "as it is" by the broadcast. *)
Theorem C108_negative_repeat_refuted : forall A (f : list Z -> A) n known, 0 <= n -> let t := {| sizes := [n]; elt := f |} in
  torch_repeat t [-1] = None /\ exists v, dec_repeat t [known] [(true, -1)] = Some (Some v) /\ sizes v = [1 * n].
Proof.
  intros A f n known N t. split; [reflexivity|].
  assert (U : dec_repeat t [known] [(true, -1)] = Some (do b <- lift_repeats 0 0 [plan_axis (known, n) (true, -1)] t; do l <- lengths 0 [plan_axis (known, n) (true, -1)] b; do c <- expand b l; merge_repeats 0 [plan_axis (known, n) (true, -1)] c)) by reflexivity.
  rewrite U. assert (P : plan_axis (known, n) (true, -1) = (-1, false, -1)) by (unfold plan_axis, DecReshapeModel.known; cbn [fst snd]; change (-1 >? 1) with false; now rewrite andb_false_r). rewrite P.
  cbn [lift_repeats]. change (kept (-1, false, -1)) with false. cbn match. destruct (unsqueeze_at A t [] [n] (Z.of_nat (0 + 0)) eq_refl eq_refl) as (a & Ea & Sa & _). rewrite Ea. cbn [obind]. cbn [app] in Sa.
  cbn [lengths]. change (negb (-1 =? 1)) with true. cbn match. rewrite (size_int_at A a [1] n []) by (try exact Sa; reflexivity). cbn [obind].
  assert (Ex : expand a [-1; n] = Some (reindex [1; n] (from [1; n]) a)). { unfold expand, rank. rewrite Sa. change (zlen [-1; n] <? zlen [1; n]) with false. cbn [length Nat.sub firstn existsb skipn expanded obind app]. rewrite Z.eqb_refl, orb_true_r. reflexivity. }
  rewrite Ex. cbn [obind merge_repeats]. change (kept (-1, false, -1)) with false. cbn match.
  destruct (flatten2_at A (reindex [1; n] (from [1; n]) a) [] 1 n [] (Z.of_nat 0) (Z.of_nat 1) eq_refl eq_refl eq_refl) as (b & Eb & Sb & _). rewrite Eb. cbn [obind]. exists b. split; [reflexivity|exact Sb].
Qed.
Theorem C108_tile_is_tile : forall A (t u : tensor A) static dims, sized t -> length static = length (sizes t) -> torch_tile t (map snd dims) = Some u ->
  exists v, dec_tile t static dims = Some (Some v) /\ same v u.
Proof. exact tile_proof. Qed.
Theorem C108_repeat_interleave_is_repeat_interleave : forall A (t u : tensor A) r dim, sized t -> torch_repeat_interleave t r dim = Some u ->
  exists v, dec_repeat_interleave t r dim = Becomes (Some v) /\ same v u.
Proof. intros A t u r [d|] Zt H; [now apply interleave_axis_proof|now apply interleave_all_proof]. Qed.
(** An axis that is out of range is refused, unless it is one or two below the first. *)
Theorem C108_repeat_interleave_of_a_bad_axis : forall A (t : tensor A) r d, axis (rank t) d = None ->
  (dec_repeat_interleave t r (Some d) = NoMatch <-> rank t <= d \/ d < - 2 * rank t - 2) /\ (dec_repeat_interleave t r (Some d) = Undefined <-> - 2 * rank t - 2 <= d < - rank t - 1).
Proof.
  intros A t r d Ax. assert (R : 0 <= rank t) by (unfold rank, zlen; lia). assert (D : d < - rank t \/ rank t <= d). { unfold axis in Ax. destruct (Z.leb_spec (- rank t) d), (Z.ltb_spec d (rank t)); cbn [andb] in Ax; try discriminate; lia. } clear Ax.
  unfold dec_repeat_interleave. generalize dependent (rank t). intros n R D. unfold is_valid_dim, to_positive_dim. destruct (Z.geb_spec d 0).
  - destruct (Z.geb_spec (d + 1) 0); [|lia]. destruct (Z.geb_spec (d + 1) 0); [|lia]. destruct (Z.ltb_spec (d + 1) (n + 1)); [lia|]. cbn [andb negb]. split; split; intros; try lia; [reflexivity|discriminate].
  - destruct (Z.geb_spec (d + n + 1) 0).
    + destruct (Z.geb_spec (d + n + 1) 0); [|lia]. destruct (Z.ltb_spec (d + n + 1) (n + 1)); [|lia]. cbn [andb negb]. destruct (Z.ltb_spec (d + n + 1) 0); [lia|]. split; split; intros; try lia; discriminate.
    + destruct (Z.geb_spec (d + n + 1 + (n + 1)) 0); cbn [andb negb].
      * destruct (Z.ltb_spec (d + n + 1 + (n + 1)) (n + 1)); [|lia]. cbn [negb]. destruct (Z.ltb_spec (d + n + 1) 0); [|lia]. split; split; intros; try lia; [discriminate|reflexivity].
      * split; split; intros; try lia; [reflexivity|discriminate].
Qed.
Theorem C108_repeat_indices : forall repeats, Forall (fun r => 0 <= r) repeats -> zlen repeats * sumZ repeats <= 2 ^ 20 ->
  dec_repeat_indices repeats (Some (sumZ repeats)) (sumZ repeats) = Some (interleaved 0 repeats).
Proof. exact repeat_indices_proof. Qed.
(** It is refused exactly if the size is unknown, negative, another one than declared, or the comparison would be too large. *)
Theorem C108_repeat_indices_refused : forall repeats output n, dec_repeat_indices repeats output n = None <->
  output = None \/ (exists o, output = Some o /\ (o < 0 \/ o <> n)) \/ (n <> 0 /\ 2 ^ 20 / n < zlen repeats).
Proof.
  intros repeats output n. unfold dec_repeat_indices. destruct output as [o|]; cbn [obind]; [|tauto]. destruct (Z.ltb_spec o 0) as [Ho|Ho]; cbn [orb].
  - split; [intros _; right; left; exists o; auto|reflexivity].
  - destruct (Z.eqb_spec o n) as [->|Ne]; cbn [negb].
    + destruct (Z.eqb_spec n 0) as [->|N0]; cbn [negb andb].
      * split; [discriminate|]. intros [|[(o & E & [|]) |[C _]]]; try discriminate; try (injection E as <-); try lia. 
      * rewrite Z.gtb_ltb. destruct (Z.ltb_spec (2 ^ 20 / n) (zlen repeats)) as [L|L]; split; intros H; try discriminate; auto. destruct H as [|[(o & E & [|]) |[_ C]]]; try discriminate; try (injection E as <-); try lia; contradiction.
    + split; [intros _; right; left; exists o; auto|reflexivity].
Qed.
(** The sum of the repeats is not compared with the size. *)
Theorem C108_repeat_indices_past_the_end_refuted : forall n, 0 < n <= 2 ^ 20 -> exists l, dec_repeat_indices [0] (Some n) n = Some l /\ zlen l = n /\ Forall (eq 1) l.
Proof.
  intros n H. unfold dec_repeat_indices. cbn [obind]. destruct (Z.ltb_spec n 0); [lia|]. rewrite Z.eqb_refl. cbn [orb negb]. destruct (Z.eqb_spec n 0); [lia|]. cbn [negb andb]. rewrite Z.gtb_ltb. destruct (Z.ltb_spec (2 ^ 20 / n) (zlen [0])) as [L|_].
  - exfalso. assert (1 <= 2 ^ 20 / n) by (apply Z.div_le_lower_bound; lia). change (zlen [0]) with 1 in L. lia.
  - eexists. split; [reflexivity|]. unfold zlen at 1, range. rewrite !map_length, seq_length. split; [lia|]. apply Forall_forall. intros x Hx. apply in_map_iff in Hx. destruct Hx as (p & <- & Hp). apply in_map_iff in Hp. destruct Hp as (i & <- & _). cbn [cumsum filter]. destruct (Z.geb_spec (0 + Z.of_nat i) (0 + 0)); [reflexivity|lia].
Qed.
Example C108_nonvacuous :
  (exists x, dec_repeat (numbered [2; 1; 3]) [true; true; false] [(true, 2); (true, 1); (true, 4); (false, 2)] = Some x /\ shown x [[1; 1; 3; 5]] = Some ([2; 2; 4; 6], [5])) /\
  (exists x, dec_tile (numbered [2; 3]) [true; true] [(true, 2)] = Some x /\ shown x [[1; 4]] = Some ([2; 6], [4])) /\
  match dec_repeat_interleave (numbered [2; 3]) 2 (Some 0) with Becomes x => shown x [[3; 1]; [1; 1]] = Some ([4; 3], [4; 1]) | _ => False end /\
  match dec_repeat_interleave (numbered [2; 3]) 2 None with Becomes x => shown x [[7]] = Some ([12], [3]) | _ => False end /\
  dec_repeat_indices [0; 1; 2; 3] (Some 6) 6 = Some [1; 2; 2; 3; 3; 3].
Proof. split; [eexists; split; reflexivity|]. split; [eexists; split; reflexivity|]. split; [reflexivity|]. split; reflexivity. Qed.
Print Assumptions C107_flatten_is_flatten.
Print Assumptions C107_flatten_of_an_empty_tensor_refuted.
Print Assumptions C107_flatten_refuses_axes_in_the_wrong_order.
Print Assumptions C107_flatten_past_the_end_refuted.
Print Assumptions C107_unflatten_is_unflatten.
Print Assumptions C107_unflatten_into_no_elements_refuted.
Print Assumptions C107_unflatten_unchecked_refuted.
Print Assumptions C107_pixel_shuffle_is_pixel_shuffle.
Print Assumptions C107_pixel_shuffle_of_no_channels_refuted.
Print Assumptions C107_pixel_shuffle_unchecked_refuted.
Print Assumptions C107_pixel_unshuffle_is_pixel_unshuffle.
Print Assumptions C107_pixel_unshuffle_of_no_rows_refuted.
Print Assumptions C107_pixel_unshuffle_undoes_pixel_shuffle.
Print Assumptions C107_channel_shuffle_uses_the_wrong_groups_refuted.
Print Assumptions C107_channel_shuffle_partial.
Print Assumptions C108_repeat_is_repeat.
Print Assumptions C108_repeat_refuses_too_few_repeats.
Print Assumptions C108_negative_repeat_refuted.
Print Assumptions C108_tile_is_tile.
Print Assumptions C108_repeat_interleave_is_repeat_interleave.
Print Assumptions C108_repeat_interleave_of_a_bad_axis.
Print Assumptions C108_repeat_indices.
Print Assumptions C108_repeat_indices_refused.
Print Assumptions C108_repeat_indices_past_the_end_refuted.
