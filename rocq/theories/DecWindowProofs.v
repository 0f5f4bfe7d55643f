(** Proofs about DecWindowModel.v. *)
From Coq Require Import ZArith Bool PeanoNat String Lia List.
From Verif Require Import Prelude TensorOps DecMoveProofs DecWindowModel DecWindowSpec.
Import ListNotations.
Open Scope string_scope.
Open Scope list_scope.
Open Scope Z_scope.

(** * Adaptive pools *)
Lemma pool2d_is : forall input output, 1 <= input -> 1 <= output ->
  (pool2d input output = Fails /\ 2 <= input mod output) \/
  (0 <= input mod output <= 1 /\ pool2d input output = Done {| kernel := input / output + input mod output; stride := input / output; padding := 0 |}).
Proof.
  intros I O HI HO. unfold pool2d. destruct (Z.eqb_spec O 0); [lia|].
  pose proof (Z.mod_pos_bound I O ltac:(lia)) as B. set (r := I mod O) in *. cbv zeta.
  rewrite Z.gtb_ltb. destruct (Z.ltb_spec (r * (O - 1)) O) as [C|C]; cbn [negb].
  - assert (R : r <= 1) by nia. assert (r = 0 \/ r = 1) as [E|E] by lia; rewrite E; cbn [Z.eqb negb orb int_of_bool].
    + right. split; [lia|reflexivity].
    + rewrite Z.add_0_r, Z.mod_1_r. right. split; [lia|reflexivity].
  - left. split; [reflexivity|]. nia.
Qed.
Lemma fixed_covers : forall s r O i x, 0 <= s -> 1 <= O -> 0 <= r <= 1 -> r < O -> 0 <= i < O ->
  (adaptive_covers (s * O + r) O i x <-> pool_covers (s + r) s i x).
Proof.
  intros s r O i x Hs HO Hr HrO Hi. unfold adaptive_covers, pool_covers.
  assert (A : i * (s * O + r) < (x + 1) * O <-> i * s <= x).
  { assert (X : (x + 1) * O - i * (s * O + r) = (x - i * s) * O + O - i * r) by ring.
    split; intros; [|assert (0 <= (x - i * s) * O) by nia; nia].
    destruct (Z.le_gt_cases (i * s) x); [assumption|]. assert ((x - i * s) * O <= - O) by nia. nia. }
  assert (B : x * O < (i + 1) * (s * O + r) <-> x < i * s + (s + r)).
  { assert (X : (i + 1) * (s * O + r) - x * O = (i * s + s - x) * O + (i + 1) * r) by ring.
    assert (r = 0 \/ r = 1) as [E|E] by lia; subst r.
    - split; intros; [|assert (0 < (i * s + s - x) * O) by nia; nia].
      destruct (Z.lt_ge_cases x (i * s + (s + 0))); [assumption|]. assert ((i * s + s - x) * O <= 0) by nia. nia.
    - split; intros; [|assert (0 <= (i * s + s - x) * O) by nia; nia].
      destruct (Z.lt_ge_cases x (i * s + (s + 1))); [assumption|]. assert ((i * s + s - x) * O <= - O) by nia. nia. }
  rewrite A, B. tauto.
Qed.
Lemma pool2d_covers : forall input output w i x, 1 <= input -> 1 <= output -> pool2d input output = Done w -> 0 <= i < output ->
  (adaptive_covers input output i x <-> pool_covers (kernel w) (stride w) i x) /\ padding w = 0.
Proof.
  intros I O w i x HI HO H Hi. destruct (pool2d_is I O HI HO) as [[E _]|[R E]]; rewrite E in H; [discriminate|]. injection H as <-. cbn [kernel stride padding].
  split; [|reflexivity]. pose proof (Z.mod_pos_bound I O ltac:(lia)). pose proof (Z.div_mod I O ltac:(lia)) as D.
  assert (0 <= I / O) by (apply Z.div_pos; lia).
  rewrite <- (fixed_covers (I / O) (I mod O) O i x) by lia.
  replace (I / O * O + I mod O) with I by lia. tauto.
Qed.
Lemma pool2d_has : forall input output w, 1 <= input -> 1 <= output -> pool2d input output = Done w -> stride w <> 0 ->
  0 < stride w /\ forall i, pool_has input (kernel w) (stride w) i <-> 0 <= i < output.
Proof.
  intros I O w HI HO H Hs. destruct (pool2d_is I O HI HO) as [[E _]|[R E]]; rewrite E in H; [discriminate|]. injection H as <-. cbn [kernel stride] in *.
  pose proof (Z.div_mod I O ltac:(lia)) as D. assert (P : 0 <= I / O) by (apply Z.div_pos; lia).
  split; [lia|]. intros i. unfold pool_has. set (s := I / O) in *. set (r := I mod O) in *.
  assert (X : I - (i * s + (s + r)) = s * (O - 1 - i)) by (rewrite D at 1; ring).
  split; intros [A B]; (split; [assumption|]).
  - assert (0 <= s * (O - 1 - i)) by lia. nia.
  - assert (0 <= s * (O - 1 - i)) by nia. lia.
Qed.
Lemma pool2d_stride : forall input output w, 1 <= input -> 1 <= output -> pool2d input output = Done w ->
  (stride w = 0 <-> input = 1 /\ 2 <= output).
Proof.
  intros I O w HI HO H. destruct (pool2d_is I O HI HO) as [[E _]|[R E]]; rewrite E in H; [discriminate|]. injection H as <-. cbn [stride].
  pose proof (Z.div_mod I O ltac:(lia)) as D. split.
  - intros Z0. rewrite Z0 in D. assert (I = I mod O) by lia. pose proof (Z.mod_pos_bound I O ltac:(lia)). lia.
  - intros [-> H2]. apply Z.div_small. lia.
Qed.
Lemma pool2d_supported : forall input output, 1 <= input -> 1 <= output ->
  (pool2d input output <> Fails <-> exists k s, forall i x, 0 <= i < output -> (adaptive_covers input output i x <-> pool_covers k s i x)).
Proof.
  intros I O HI HO. split.
  - intros N. destruct (pool2d_is I O HI HO) as [[E _]|[R E]]; [contradiction|]. eexists. eexists. intros i x Hi.
    exact (proj1 (pool2d_covers I O _ i x HI HO E Hi)).
  - intros (k & s & H) F. destruct (pool2d_is I O HI HO) as [[_ R]|[_ E]]; [|congruence].
    pose proof (Z.mod_pos_bound I O ltac:(lia)) as B. pose proof (Z.div_mod I O ltac:(lia)) as D.
    assert (P : 0 <= I / O) by (apply Z.div_pos; lia). set (q := I / O) in *. set (r := I mod O) in *.
    assert (K : 0 < k). { assert (X : pool_covers k s 0 0) by (apply H; [lia|]; unfold adaptive_covers; lia). unfold pool_covers in X. lia. }
    assert (X1 : pool_covers k s 1 q) by (apply H; [lia|]; unfold adaptive_covers; nia).
    assert (X2 : adaptive_covers I O 1 s) by (apply H; [lia|]; unfold pool_covers; lia).
    assert (Es : s = q). { unfold pool_covers in X1. unfold adaptive_covers in X2. destruct X2 as [X2 _]. nia. }
    assert (X3 : adaptive_covers I O (O - 1) ((O - 1) * s)) by (apply H; [lia|]; unfold pool_covers; lia).
    unfold adaptive_covers in X3. destruct X3 as [X3 _]. subst s. rewrite D in X3.
    assert ((O - 1) * r < O) by nia. nia.
Qed.
Lemma pool1d_covers : forall constant input output w, 1 <= input -> 1 <= output -> pool1d false constant input output = Done w ->
  padding w = 0 /\ (forall i x, 0 <= i < output -> (adaptive_covers input output i x <-> pool_covers (kernel w) (stride w) i x)) /\
  forall i, pool_has input (kernel w) (stride w) i <-> 0 <= i < output.
Proof.
  intros c I O w HI HO H. unfold pool1d in H. destruct c; [|discriminate]. cbn [negb andb] in H.
  destruct (Z.eqb_spec O 1) as [->|N].
  - injection H as <-. cbn [kernel stride padding]. split; [reflexivity|]. unfold adaptive_covers, pool_covers, pool_has. split; intros; [assert (i = 0) by lia; subst i|]; lia.
  - destruct (Z.eqb_spec I O) as [->|]; [|discriminate]. injection H as <-. cbn [kernel stride padding]. split; [reflexivity|].
    unfold adaptive_covers, pool_covers, pool_has. split; intros; [|lia]. split; intros [A B]; split; nia.
Qed.

(** * Convolutions *)
Lemma same_paddings_is : forall sizes dilation ps, same_paddings sizes dilation = Done ps ->
  List.length ps = List.length sizes /\
  forall j k, nth_error sizes j = Some k -> exists d p, nth_error dilation j = Some d /\ nth_error ps j = Some p /\ 2 * p <= d * (k - 1) < 2 * p + 2.
Proof.
  induction sizes as [|n sizes IH]; intros dil ps H; cbn in H; [injection H as <-; split; [reflexivity|intros [|j] k; discriminate]|].
  destruct dil as [|d dil]; [discriminate|]. destruct (same_paddings sizes dil) as [r| | |] eqn:E; try discriminate. injection H as <-.
  destruct (IH _ _ E) as [L G]. split; [cbn; now rewrite L|]. intros [|j] k J; cbn in J.
  - injection J as <-. exists d, (d * (n - 1) / 2). split; [reflexivity|]. split; [reflexivity|].
    pose proof (Z.div_mod (d * (n - 1)) 2 ltac:(lia)). pose proof (Z.mod_pos_bound (d * (n - 1)) 2 ltac:(lia)). lia.
  - exact (G j k J).
Qed.
Lemma same_paddings_outcome : forall sizes dilation,
  same_paddings sizes dilation <> Refused /\ same_paddings sizes dilation <> Fails /\
  (same_paddings sizes dilation = Undefined <-> (List.length dilation < List.length sizes)%nat).
Proof.
  induction sizes as [|n sizes IH]; intros dil; cbn; [split; [discriminate|split; [discriminate|split; [discriminate|lia]]]|].
  destruct dil as [|d dil]; cbn; [split; [discriminate|split; [discriminate|split; [lia|reflexivity]]]|].
  destruct (IH dil) as (A & B & C). destruct (same_paddings sizes dil); try contradiction.
  - split; [discriminate|]. split; [discriminate|]. split; [discriminate|]. intros X. assert (Y : Done a = Undefined) by (apply C; lia). discriminate.
  - split; [discriminate|]. split; [discriminate|]. split; [|reflexivity]. intros _. assert (X := proj1 C eq_refl). lia.
Qed.

(** * Pads *)
Lemma useful_end_is : forall l, Nat.even (List.length l) = true ->
  match useful_end l with
  | None => Forall (fun x => x = 0) l
  | Some e => exists z b a r, l = z ++ b :: a :: r /\ Forall (fun x => x = 0) z /\ Nat.even (List.length z) = true /\ (b <> 0 \/ a <> 0) /\ e = List.length (b :: a :: r)
  end.
Proof.
  fix IH 1. intros [|b [|a l]] Ev; [constructor|discriminate|]. cbn [useful_end].
  destruct (Z.eqb_spec b 0) as [->|Nb]; cbn [negb orb].
  - destruct (Z.eqb_spec a 0) as [->|Na]; cbn [negb orb].
    + specialize (IH l Ev). destruct (useful_end l) as [e|].
      * destruct IH as (z & b & a & r & -> & F & Ez & N & He). exists (0 :: 0 :: z), b, a, r. split; [reflexivity|].
        split; [repeat constructor; assumption|]. split; [exact Ez|]. split; assumption.
      * repeat constructor; assumption.
    + exists [], 0, a, l. repeat split; auto.
  - exists [], b, a, l. repeat split; auto.
Qed.
Lemma source_in : forall m n i, 0 <= i < n -> source m n i = i.
Proof. intros [|] n i H; unfold source; [|lia]. destruct (Z.ltb_spec i 0), (Z.leb_spec n i); lia. Qed.
Lemma zeros_ignored : forall m rs z, Forall (fun x => x = 0) z ->
  padded rs z = rs /\ forall rix, within rs rix -> moved m rs z rix = rix.
Proof.
  intros m. induction rs as [|n rs IH]; intros z F; [destruct z as [|? [|? ?]]; split; reflexivity|].
  destruct z as [|l [|r z]]; [split; reflexivity|split; reflexivity|]. cbn [padded moved].
  inversion F as [|? ? El F']; subst. inversion F' as [|? ? Er F'']; subst.
  destruct (IH z F'') as [P M]. split; [rewrite P; f_equal; lia|]. intros rix W. inversion W as [|? i ? rix' B W']; subst.
  rewrite M by auto. rewrite Z.sub_0_r, source_in by auto. reflexivity.
Qed.
Lemma trailing_zeros : forall m rs u z, Nat.even (List.length u) = true -> Forall (fun x => x = 0) z ->
  padded rs (u ++ z) = padded rs u /\ forall rix, within (padded rs u) rix -> moved m rs (u ++ z) rix = moved m rs u rix.
Proof.
  intros m. induction rs as [|n rs IH]; intros u z Ev F.
  - destruct u as [|? [|? ?]]; [|discriminate|split; reflexivity]. cbn [app]. destruct z as [|? [|? ?]]; split; reflexivity.
  - destruct u as [|l [|r u]]; [|discriminate|].
    + cbn [app]. destruct (zeros_ignored m (n :: rs) z F) as [P M]. split; [exact P|]. intros rix W. rewrite M by exact W. reflexivity.
    + cbn [app padded moved]. destruct (IH u z Ev F) as [P M]. split; [now rewrite P|].
      intros rix W. inversion W as [|? i ? rix' B W']; subst. rewrite M by auto. reflexivity.
Qed.
Lemma within_rev : forall s ix, within s ix -> within (rev s) (rev ix).
Proof.
  intros s ix W. induction W as [|n i s ix B W IH]; cbn [rev]; [constructor|]. apply Forall2_app; [exact IH|]. constructor; [exact B|constructor].
Qed.
Lemma pad_same : forall A m (t : tensor A) u z, Nat.even (List.length u) = true -> Forall (fun x => x = 0) z ->
  same (torch_pad m t u) (torch_pad m t (u ++ z)).
Proof.
  intros A m t u z Ev F. destruct (trailing_zeros m (rev (sizes t)) u z Ev F) as [P M]. unfold torch_pad. split; cbn [sizes elt]; [now rewrite P|].
  intros ix W. rewrite M; [reflexivity|]. apply within_rev in W. rewrite rev_involutive in W. exact W.
Qed.
Lemma useful_pads : forall ps e, Nat.odd (List.length ps) = false -> useful_end (rev ps) = Some e ->
  exists u z, ps = u ++ z /\ Forall (fun x => x = 0) z /\ firstn e ps = u /\ e = List.length u /\ Nat.even e = true /\ (0 < e)%nat /\
    (nth (e - 1) u 0 <> 0 \/ nth (e - 2) u 0 <> 0).
Proof.
  intros ps e Od U. assert (Ev : Nat.even (List.length (rev ps)) = true) by (rewrite rev_length, <- Nat.negb_odd, Od; reflexivity).
  pose proof (useful_end_is (rev ps) Ev) as H. rewrite U in H. destruct H as (z & b & a & r & El & F & Ez & N & He).
  exists (rev (b :: a :: r)), (rev z). assert (Ep : ps = rev (b :: a :: r) ++ rev z) by (rewrite <- rev_app_distr, <- El, rev_involutive; reflexivity).
  split; [exact Ep|]. split; [apply Forall_rev; exact F|].
  split; [rewrite Ep, He, <- (rev_length (b :: a :: r)), firstn_app, firstn_all, Nat.sub_diag; cbn [firstn]; apply app_nil_r|].
  split; [now rewrite rev_length|]. split.
  { rewrite El, app_length in Ev. rewrite He. rewrite Nat.even_add, Ez in Ev. destruct (Nat.even (List.length (b :: a :: r))); [reflexivity|discriminate]. }
  split; [rewrite He; cbn; lia|]. rewrite He. cbn [List.length rev].
  replace (S (S (List.length r)) - 1)%nat with (List.length (rev r ++ [a])) by (rewrite app_length, rev_length; cbn; lia).
  rewrite nth_middle. rewrite <- app_assoc. cbn [app].
  replace (S (S (List.length r)) - 2)%nat with (List.length (rev r)) by (rewrite rev_length; lia). rewrite nth_middle. exact N.
Qed.
