(** Property C84: windows, Fourier transforms and col2im. *)
From Coq Require Import ZArith Bool Lia List.
From Verif Require Import Prelude ShapeCoreModel ShapeCoreSpec ShapeCoreProofs ShapeBroadcastProps ShapeViewProps ShapeDimProps
  ShapeMatProps ShapeMiscModel ShapeMoreModel ShapeMoreSpec.
Import ListNotations.
Open Scope Z_scope.

Lemma same_elements_length : forall A (l r : list A), NoDup l -> NoDup r -> (forall x, In x l <-> In x r) -> length l = length r.
Proof.
  intros A l r Hl Hr H. apply Nat.le_antisymm; apply NoDup_incl_length; auto; intros x; apply H.
Qed.
Lemma in_range : forall a b x, In x (zrange a b) <-> a <= x < b.
Proof.
  intros a b x. unfold zrange. rewrite in_map_iff. split.
  - intros (k & <- & H). apply in_seq in H. lia.
  - intros H. exists (Z.to_nat (x - a)). split; [lia|]. apply in_seq. lia.
Qed.
Lemma range_nodup : forall a b, NoDup (zrange a b).
Proof. intros a b. unfold zrange. apply FinFun.Injective_map_NoDup; [intros x y; lia|apply seq_NoDup]. Qed.
Lemma range_zlen : forall n, 0 <= n -> zlen (zrange 0 n) = n.
Proof. intros n H. unfold zlen, zrange. rewrite map_length, seq_length. lia. Qed.
Theorem C84_windows_counted : forall n size step, 0 <= size -> 0 < step ->
  windows n size step = if size <=? n then (n - size) / step + 1 else 0.
Proof.
  intros n size step Hs Ht. unfold windows, window_starts. destruct (Z.leb_spec size n) as [L|L].
  - pose proof (Z.div_pos (n - size) step ltac:(lia) Ht) as P.
    rewrite <- (range_zlen ((n - size) / step + 1)) by lia.
    transitivity (zlen (map (fun j => j * step) (zrange 0 ((n - size) / step + 1)))); [|unfold zlen; now rewrite map_length].
    unfold zlen. f_equal. apply same_elements_length.
    + apply NoDup_filter, range_nodup.
    + apply FinFun.Injective_map_NoDup; [intros x y; nia|apply range_nodup].
    + intros x. rewrite filter_In, in_range, in_map_iff, andb_true_iff, Z.eqb_eq, Z.leb_le. split.
      * intros (R & M & F). exists (x / step). rewrite in_range. apply Z.mod_divide in M; [|lia]. destruct M as [j ->].
        rewrite Z.div_mul by lia. split; auto. assert (j <= (n - size) / step) by (apply Z.div_le_lower_bound; lia). nia.
      * intros (j & <- & R). rewrite in_range in R. rewrite Z.mod_mul by lia. split; [|split; auto]; pose proof (Z.mul_div_le (n - size) step Ht); nia.
  - destruct (filter _ _) as [|x l] eqn:E; [reflexivity|]. assert (I : In x (x :: l)) by now left. rewrite <- E in I.
    rewrite filter_In, in_range, andb_true_iff, Z.leb_le in I. lia.
Qed.
Theorem C84_frequencies_counted : forall n, 0 <= n -> real_frequencies n = n / 2 + 1.
Proof.
  intros n H. unfold real_frequencies. pose proof (Z.div_pos n 2 H ltac:(lia)). rewrite <- (range_zlen (n / 2 + 1)) by lia.
  unfold zlen. f_equal. apply same_elements_length.
  - apply NoDup_filter, range_nodup.
  - apply range_nodup.
  - intros x. rewrite filter_In, !in_range, Z.leb_le. pose proof (Z.mul_div_le n 2 ltac:(lia)).
    split; intros R; [|lia]. assert (x <= n / 2) by (apply Z.div_le_lower_bound; lia). lia.
Qed.

(** ** unfold *)

Lemma dim_wrap : forall (self : list Z) d, self <> [] ->
  (if d <? 0 then d + zlen self else d) = (if d <? 0 then d + zlen self else d) /\
  (((0 <=? (if d <? 0 then d + zlen self else d)) && ((if d <? 0 then d + zlen self else d) <? zlen self)) = true <->
   exists k, denotes (length self) d k /\ (if d <? 0 then d + zlen self else d) = Z.of_nat k).
Proof.
  intros self d Hs. split; auto. rewrite andb_true_iff, Z.leb_le, Z.ltb_lt. unfold denotes, zlen. split.
  - intros H. exists (Z.to_nat (if d <? 0 then d + Z.of_nat (length self) else d)). destruct (Z.ltb_spec d 0); lia.
  - intros (k & D & ->). lia.
Qed.
Lemma dim_denotes : forall (self : list Z) d k, denotes (length self) d k -> (if d <? 0 then d + zlen self else d) = Z.of_nat k.
Proof. intros self d k. unfold denotes, zlen. intros H. destruct (Z.ltb_spec d 0); lia. Qed.
Lemma pyset_nat : forall (s : list Z) k v, (k < length s)%nat -> pyset s (Z.of_nat k) v = Some (set_nth k v s).
Proof. intros. apply pyset_valid. unfold denotes. lia. Qed.
Lemma nth_some : forall (s : list Z) k n, nth_error s k = Some n -> (k < length s)%nat.
Proof. intros s k n H. apply nth_error_Some. congruence. Qed.
Theorem C84_unfold_counts_windows : forall self dim size step out, self <> [] -> 0 <= size -> 0 < step ->
  (unfold_shape self dim size step = Some out <->
   exists k n, denotes (length self) dim k /\ nth_error self k = Some n /\ size <= n /\
     out = set_nth k (windows n size step) self ++ [size]).
Proof.
  intros self dim size step out Hs Hz Ht. unfold unfold_shape. destruct (Z.eqb_spec (zlen self) 0) as [E|_].
  { unfold zlen in E. destruct self; [congruence|simpl in E; lia]. }
  cbv zeta. destruct (dim_wrap self dim Hs) as [_ W]. split.
  - destruct (_ && _); [|discriminate]. destruct (proj1 W eq_refl) as (k & D & ->). cbn [guard obind]. rewrite pyidx_nat.
    destruct (nth_error self k) as [n|] eqn:N; [|discriminate]. cbn [obind]. destruct (Z.leb_spec size n); [|discriminate]. cbn [guard obind].
    unfold pydiv. destruct (Z.eqb_spec step 0); [lia|]. cbn [guard obind]. rewrite unary_spec. cbn [obind].
    rewrite pyset_nat by (eapply nth_some; eauto). cbn [obind]. intros [= <-]. exists k, n. rewrite C84_windows_counted by lia.
    destruct (Z.leb_spec size n); [auto 10|lia].
  - intros (k & n & D & N & L & ->). rewrite (proj2 W) by (exists k; split; auto; now apply dim_denotes). cbn [guard obind].
    rewrite (dim_denotes _ _ _ D), pyidx_nat, N. cbn [obind]. destruct (Z.leb_spec size n); [|lia]. cbn [guard obind].
    unfold pydiv. destruct (Z.eqb_spec step 0); [lia|]. cbn [guard obind]. rewrite unary_spec. cbn [obind].
    rewrite pyset_nat by (eapply nth_some; eauto). cbn [obind]. rewrite C84_windows_counted by lia. destruct (Z.leb_spec size n); [auto|lia].
Qed.
Theorem C84_unfold_scalar : forall dim size step out, unfold_shape [] dim size step = Some out <-> dim = 0 /\ size <= 1 /\ out = [size].
Proof.
  intros dim size step out. unfold unfold_shape. cbn. destruct (Z.eqb_spec dim 0); [|split; [discriminate|tauto]]. cbn.
  destruct (Z.leb_spec size 1); cbn; split; try discriminate; try lia; intros H1; [injection H1 as <-; auto|now destruct H1 as (_ & _ & ->)].
Qed.
(** Negative sizes and steps are accepted. *)
Theorem C84_unfold_unchecked_refuted :
  unfold_shape [5] 0 (-2) 1 = Some [8; -2] /\ unfold_shape [5] 0 2 (-1) = Some [-2; 2].
Proof. split; reflexivity. Qed.

(** ** Short-time Fourier transform *)

(** Frames of a signal of [len] samples, [hop] apart; one column per frequency kept. *)
Definition stft_rows (onesided : option bool) (n_fft : Z) : Z :=
  match onesided with Some false => n_fft | _ => real_frequencies n_fft end.
Definition stft_parts (return_complex : option bool) : list Z := match return_complex with Some false => [2] | _ => [] end.
Definition hop_length (hop : option Z) (n_fft : Z) : Z := match hop with Some h => h | None => n_fft / 4 end.
Lemma stft_general : forall self n_fft hop center onesided rc is_center out,
  stft self n_fft hop center onesided rc is_center = Some out <->
  exists batch len, self = batch ++ [len] /\ (length batch <= 1)%nat /\ 0 < n_fft <= len /\ 0 < hop_length hop n_fft /\
    out = batch ++ [stft_rows onesided n_fft;
                    (match is_center, center with true, (None | Some true) => 1 + len / hop_length hop n_fft
                                                | _, _ => windows len n_fft (hop_length hop n_fft) end)] ++ stft_parts rc.
Proof.
  intros self n_fft hop center onesided rc is_center out. unfold stft.
  assert (G : forall batch len, (length batch <= 1)%nat ->
    (assert (0 <? n_fft) && (n_fft <=? len); assert 0 <? hop_length hop n_fft;
      let out := match (match batch with [] => None | b :: _ => Some b end) with Some b => [b] | None => [] end in
      let out := out ++ [match onesided with | None | Some true => n_fft / 2 + 1 | Some false => n_fft end] in
      let out := out ++ [if is_center
                     then match center with
                          | None | Some true => 1 + len / hop_length hop n_fft
                          | Some false => 1 + (len - n_fft) / hop_length hop n_fft end
                     else 1 + (len - n_fft) / hop_length hop n_fft] in
      Some (out ++ match rc with Some false => [2] | _ => [] end)) = Some out <->
    0 < n_fft <= len /\ 0 < hop_length hop n_fft /\
    out = batch ++ [stft_rows onesided n_fft;
                    (match is_center, center with true, (None | Some true) => 1 + len / hop_length hop n_fft
                                                | _, _ => windows len n_fft (hop_length hop n_fft) end)] ++ stft_parts rc).
  { intros batch len L. cbv zeta. destruct (Z.ltb_spec 0 n_fft) as [N|]; [|split; [discriminate|lia]].
    destruct (Z.leb_spec n_fft len) as [N2|]; [|split; [discriminate|lia]]. cbn [andb guard obind].
    destruct (Z.ltb_spec 0 (hop_length hop n_fft)) as [Hh|]; [|split; [discriminate|lia]]. cbn [guard obind].
    assert (W : 1 + (len - n_fft) / hop_length hop n_fft = windows len n_fft (hop_length hop n_fft)).
    { rewrite C84_windows_counted by lia. destruct (Z.leb_spec n_fft len); lia. }
    assert (R : match onesided with | None | Some true => n_fft / 2 + 1 | Some false => n_fft end = stft_rows onesided n_fft).
    { unfold stft_rows. rewrite C84_frequencies_counted by lia. now destruct onesided as [[|]|]. }
    rewrite R, W. change (match rc with Some false => [2] | _ => [] end) with (stft_parts rc).
    assert (B : match (match batch with [] => None | b :: _ => Some b end) with Some b => [b] | None => [] end = batch).
    { destruct batch as [|b [|]]; auto. simpl in L. lia. }
    rewrite B, <- !app_assoc. cbn [app].
    split; [intros [= <-]; auto|intros (_ & _ & ->); auto]. }
  split.
  - destruct (Z.eqb_spec (zlen self) 1) as [E|E].
    + destruct (zlen_1 self E) as [x ->]. cbn [orb guard obind]. change (pyidx [x] 0) with (Some x). cbn [obind].
      intros H. exists [], x. split; auto. split; [simpl; lia|]. apply (G [] x); [simpl; lia|exact H].
    + destruct (Z.eqb_spec (zlen self) 2) as [E2|]; [|discriminate]. destruct (zlen_2 self E2) as (b & x & ->). cbn [orb guard obind].
      change (pyidx [b; x] 0) with (Some b). change (pyidx [b; x] 1) with (Some x). cbn [obind option_map].
      intros H. exists [b], x. split; auto. split; [simpl; lia|]. apply (G [b] x); [simpl; lia|exact H].
  - intros (batch & len & -> & L & H). apply (G batch len L) in H. destruct batch as [|b [|]]; [| |simpl in L; lia]; exact H.
Qed.
Theorem C84_stft_counts_frames : forall self n_fft hop onesided rc out,
  stft self n_fft hop None onesided rc false = Some out <->
  exists batch len, self = batch ++ [len] /\ (length batch <= 1)%nat /\ 0 < n_fft <= len /\ 0 < hop_length hop n_fft /\
    out = batch ++ [stft_rows onesided n_fft; windows len n_fft (hop_length hop n_fft)] ++ stft_parts rc.
Proof. intros. apply stft_general. Qed.
Theorem C84_stft_not_centered : forall self n_fft hop onesided rc,
  stft self n_fft hop (Some false) onesided rc true = stft self n_fft hop None onesided rc false.
Proof. reflexivity. Qed.
(** Centering pads half a window at each end. With an odd window one frame too many is counted when the hop divides the length. *)
Definition centered_frames (len n_fft hop : Z) : Z := windows (len + 2 * (n_fft / 2)) n_fft hop.
Lemma centered : forall len n_fft hop, 0 < n_fft <= len -> 0 < hop ->
  1 + len / hop = centered_frames len n_fft hop + (if Z.odd n_fft && (len mod hop =? 0) then 1 else 0).
Proof.
  intros len n_fft hop H Hh. unfold centered_frames. rewrite C84_windows_counted by lia.
  assert (O : n_fft = 2 * (n_fft / 2) + Z.b2z (Z.odd n_fft)) by (rewrite <- Z.div2_div; apply Z.div2_odd).
  destruct (Z.odd n_fft); cbn [Z.b2z andb] in *.
  - destruct (Z.leb_spec n_fft (len + 2 * (n_fft / 2))); [|lia].
    replace (len + 2 * (n_fft / 2) - n_fft) with (len - 1) by lia.
    pose proof (Z.div_mod len hop ltac:(lia)) as DM. pose proof (Z.mod_pos_bound len hop Hh) as B.
    destruct (Z.eqb_spec (len mod hop) 0) as [M|M].
    + assert (X : (len - 1) / hop = len / hop - 1).
      { symmetry. apply (Z.div_unique (len - 1) hop (len / hop - 1) (hop - 1)); [lia|]. nia. }
      lia.
    + assert (X : (len - 1) / hop = len / hop).
      { symmetry. apply (Z.div_unique (len - 1) hop (len / hop) (len mod hop - 1)); [lia|]. nia. }
      lia.
  - destruct (Z.leb_spec n_fft (len + 2 * (n_fft / 2))); [|lia].
    replace (len + 2 * (n_fft / 2) - n_fft) with len by lia. lia.
Qed.
Theorem C84_stft_centered_partial : forall self n_fft hop center onesided rc out, center <> Some false ->
  (stft self n_fft hop center onesided rc true = Some out <->
   exists batch len, self = batch ++ [len] /\ (length batch <= 1)%nat /\ 0 < n_fft <= len /\ 0 < hop_length hop n_fft /\
     out = batch ++ [stft_rows onesided n_fft;
                     centered_frames len n_fft (hop_length hop n_fft) +
                     (if Z.odd n_fft && (len mod hop_length hop n_fft =? 0) then 1 else 0)] ++ stft_parts rc).
Proof.
  intros self n_fft hop center onesided rc out C. rewrite stft_general.
  split; intros (batch & len & -> & L & N & Hh & ->); exists batch, len; (do 4 (split; [auto|])); rewrite <- centered by auto;
  now destruct center as [[|]|].
Qed.
Theorem C84_stft_odd_window_refuted : stft [8] 3 (Some 2) None None None true = Some [2; 5] /\ centered_frames 8 3 2 = 4.
Proof. split; reflexivity. Qed.
(** A window longer than the signal but not than the padded signal is refused. *)
Theorem C84_stft_long_window_refuted : stft [6] 8 (Some 2) None None None true = None /\ centered_frames 6 8 2 = 4.
Proof. split; reflexivity. Qed.
Theorem C84_rfft_spec : forall self dim out, (forall n, In n self -> 0 <= n) ->
  (fft_rfft self dim = Some out <->
   exists k n, denotes (length self) dim k /\ nth_error self k = Some n /\ out = set_nth k (real_frequencies n) self).
Proof.
  intros self dim out P. unfold fft_rfft. cbv zeta. destruct self as [|x self].
  { destruct (_ && _) eqn:E; [|split; [discriminate|intros (k & n & [L _] & _); simpl in L; lia]].
    rewrite andb_true_iff, Z.leb_le, Z.ltb_lt in E. change (zlen (@nil Z)) with 0 in E. lia. }
  set (s := x :: self) in *. assert (Hs : s <> []) by discriminate. destruct (dim_wrap s dim Hs) as [_ W]. split.
  - destruct (_ && _); [|discriminate]. destruct (proj1 W eq_refl) as (k & D & ->). cbn [guard obind]. rewrite pyidx_nat.
    destruct (nth_error s k) as [n|] eqn:N; [|discriminate]. cbn [obind]. rewrite pyset_nat by (eapply nth_some; eauto).
    intros [= <-]. exists k, n. rewrite C84_frequencies_counted; auto. apply P. eapply nth_error_In; eauto.
  - intros (k & n & D & N & ->). rewrite (proj2 W) by (exists k; split; auto; now apply dim_denotes). cbn [guard obind].
    rewrite (dim_denotes _ _ _ D), pyidx_nat, N. cbn [obind]. rewrite pyset_nat by (eapply nth_some; eauto).
    rewrite C84_frequencies_counted; auto. apply P. eapply nth_error_In; eauto.
Qed.

(** ** col2im *)

(** Positions of a dilated kernel of [k] points in [n] padded points, [s] apart. *)
Definition blocks (n k d p s : Z) : Z := windows (n + 2 * p) (d * (k - 1) + 1) s.
Definition spans (n k d p : Z) : Prop := d * (k - 1) + 1 <= n + 2 * p.
Definition columns (self out kernel dilation padding stride result : list Z) : Prop :=
  exists batch plane len o0 o1 k0 k1 d0 d1 p0 p1 s0 s1 c,
    self = batch ++ [plane; len] /\ (length batch <= 1)%nat /\ out = [o0; o1] /\ kernel = [k0; k1] /\ dilation = [d0; d1] /\
    padding = [p0; p1] /\ stride = [s0; s1] /\ 0 < k0 /\ 0 < k1 /\ 0 < d0 /\ 0 < d1 /\ 0 <= p0 /\ 0 <= p1 /\ 0 < s0 /\ 0 < s1 /\
    plane <> 0 /\ len <> 0 /\ plane = c * (k0 * k1) /\ len = blocks o0 k0 d0 p0 s0 * blocks o1 k1 d1 p1 s1 /\
    result = batch ++ [c; o0; o1].
Lemma col2im_run : forall batch plane len o0 o1 k0 k1 d0 d1 p0 p1 s0 s1 result, (length batch <= 1)%nat ->
  0 < k0 -> 0 < k1 -> 0 < d0 -> 0 < d1 -> 0 <= p0 -> 0 <= p1 -> 0 < s0 -> 0 < s1 -> spans o0 k0 d0 p0 -> spans o1 k1 d1 p1 ->
  (col2im (batch ++ [plane; len]) [o0; o1] [k0; k1] [d0; d1] [p0; p1] [s0; s1] = Some result <->
   plane <> 0 /\ len <> 0 /\ len = blocks o0 k0 d0 p0 s0 * blocks o1 k1 d1 p1 s1 /\
   exists c, plane = c * (k0 * k1) /\ result = batch ++ [c; o0; o1]).
Proof.
  intros batch plane len o0 o1 k0 k1 d0 d1 p0 p1 s0 s1 result L K0 K1 D0 D1 P0 P1 S0 S1 F0 F1. unfold spans in *. unfold blocks.
  rewrite !C84_windows_counted by nia.
  destruct (Z.leb_spec (d0 * (k0 - 1) + 1) (o0 + 2 * p0)); [|lia]. destruct (Z.leb_spec (d1 * (k1 - 1) + 1) (o1 + 2 * p1)); [|lia].
  set (A := (o0 + 2 * p0 - (d0 * (k0 - 1) + 1)) / s0). set (B := (o1 + 2 * p1 - (d1 * (k1 - 1) + 1)) / s1).
  assert (EA : pydiv (o0 + 2 * p0 - d0 * (k0 - 1) - 1) s0 = Some A).
  { unfold pydiv. destruct (Z.eqb_spec s0 0); [lia|]. cbn. unfold A. do 2 f_equal. lia. }
  assert (EB : pydiv (o1 + 2 * p1 - d1 * (k1 - 1) - 1) s1 = Some B).
  { unfold pydiv. destruct (Z.eqb_spec s1 0); [lia|]. cbn. unfold B. do 2 f_equal. lia. }
  assert (KK : 0 < k0 * k1) by nia.
  assert (EM : pymod plane (k0 * k1) = Some (plane mod (k0 * k1))) by (unfold pymod; destruct (Z.eqb_spec (k0 * k1) 0); [lia|reflexivity]).
  assert (ED : pydiv plane (k0 * k1) = Some (plane / (k0 * k1))) by (unfold pydiv; destruct (Z.eqb_spec (k0 * k1) 0); [lia|reflexivity]).
  assert (R : forall first : list Z,
    (assert negb (plane =? 0) && negb (len =? 0); assert plane mod (k0 * k1) =? 0; assert len =? (A + 1) * (B + 1);
     Some (first ++ [plane / (k0 * k1); o0; o1])) = Some result <->
    plane <> 0 /\ len <> 0 /\ len = (A + 1) * (B + 1) /\ exists c, plane = c * (k0 * k1) /\ result = first ++ [c; o0; o1]).
  { intros first. destruct (Z.eqb_spec plane 0); [split; [discriminate|tauto]|]. destruct (Z.eqb_spec len 0); [split; [discriminate|tauto]|].
    cbn [negb andb guard obind]. destruct (Z.eqb_spec (plane mod (k0 * k1)) 0) as [M|M]; cbn [guard obind].
    - destruct (Z.eqb_spec len ((A + 1) * (B + 1))); cbn [guard obind]; [|split; [discriminate|tauto]].
      apply Z.mod_divide in M; [|lia]. destruct M as [c ->]. rewrite Z.div_mul by lia. split.
      + intros [= <-]. eauto 10.
      + intros (_ & _ & _ & c' & E & ->). assert (c = c') by nia. now subst.
    - split; [discriminate|]. intros (_ & _ & _ & c & -> & _). rewrite Z.mod_mul in M by lia. congruence. }
  assert (Pos : forall x y, 0 < x -> 0 < y -> ((0 <? x) && (0 <? y)) = true) by (intros; rewrite andb_true_iff, !Z.ltb_lt; auto).
  assert (Nn : ((0 <=? p0) && (0 <=? p1)) = true) by (rewrite andb_true_iff, !Z.leb_le; auto).
  unfold col2im. 
  change (zlen [o0; o1] =? 2) with true. change (zlen [k0; k1] =? 2) with true. change (zlen [d0; d1] =? 2) with true.
  change (zlen [s0; s1] =? 2) with true. change (zlen [p0; p1] =? 2) with true.
  change (pyidx [o0; o1] 0) with (Some o0). change (pyidx [o0; o1] 1) with (Some o1).
  change (pyidx [k0; k1] 0) with (Some k0). change (pyidx [k0; k1] 1) with (Some k1).
  change (pyidx [d0; d1] 0) with (Some d0). change (pyidx [d0; d1] 1) with (Some d1).
  change (pyidx [p0; p1] 0) with (Some p0). change (pyidx [p0; p1] 1) with (Some p1).
  change (pyidx [s0; s1] 0) with (Some s0). change (pyidx [s0; s1] 1) with (Some s1).
  cbn [obind guard]. rewrite (Pos k0 k1), (Pos d0 d1), (Pos s0 s1), Nn by auto. cbn [obind guard].
  destruct batch as [|b [|]]; [| |simpl in L; lia]; cbn [app].
  - change (zlen [plane; len] =? 2) with true. change (zlen [plane; len] =? 3) with false. cbv iota. change (-1 + 1) with 0. change (-1 + 2) with 1.
    change (-1 =? 0) with false.
    change (pyidx [plane; len] 0) with (Some plane). change (pyidx [plane; len] 1) with (Some len). cbn [obind].
    rewrite <- (R []). destruct (negb (plane =? 0) && negb (len =? 0)); cbn [guard obind]; [|reflexivity]. rewrite EM. cbn [obind].
    destruct (_ =? 0); cbn [guard obind]; [|reflexivity]. rewrite EA. cbn [obind]. rewrite EB. cbn [obind].
    destruct (len =? _); cbn [guard obind]; [|reflexivity]. rewrite ED. reflexivity.
  - change (zlen [b; plane; len] =? 2) with false. change (zlen [b; plane; len] =? 3) with true. cbv iota. change (0 + 1) with 1. change (0 + 2) with 2.
    change (0 =? 0) with true. change (pyidx [b; plane; len] 0) with (Some b).
    change (pyidx [b; plane; len] 1) with (Some plane). change (pyidx [b; plane; len] 2) with (Some len). cbn [obind].
    rewrite <- (R [b]). destruct (negb (plane =? 0) && negb (len =? 0)); cbn [guard obind]; [|reflexivity]. rewrite EM. cbn [obind].
    destruct (_ =? 0); cbn [guard obind]; [|reflexivity]. rewrite EA. cbn [obind]. rewrite EB. cbn [obind].
    destruct (len =? _); cbn [guard obind]; [|reflexivity]. rewrite ED. reflexivity.
Qed.
Lemma col2im_needs : forall self out kernel dilation padding stride result,
  col2im self out kernel dilation padding stride = Some result ->
  exists batch plane len o0 o1 k0 k1 d0 d1 p0 p1 s0 s1, self = batch ++ [plane; len] /\ (length batch <= 1)%nat /\ out = [o0; o1] /\
    kernel = [k0; k1] /\ dilation = [d0; d1] /\ padding = [p0; p1] /\ stride = [s0; s1] /\
    0 < k0 /\ 0 < k1 /\ 0 < d0 /\ 0 < d1 /\ 0 <= p0 /\ 0 <= p1 /\ 0 < s0 /\ 0 < s1.
Proof.
  intros self out kernel dilation padding stride result H. unfold col2im in H.
  assert (S : exists batch plane len, self = batch ++ [plane; len] /\ (length batch <= 1)%nat).
  { destruct (Z.eqb_spec (zlen self) 2) as [E|E].
    - destruct (zlen_2 self E) as (x & y & ->). exists [], x, y. simpl. auto.
    - destruct (Z.eqb_spec (zlen self) 3) as [E3|]; [|discriminate]. destruct (zlen_3 self E3) as (b & x & y & ->). exists [b], x, y. simpl. auto. }
  destruct S as (batch & plane & len & -> & L). exists batch, plane, len.
  destruct (if zlen (batch ++ [plane; len]) =? 2 then _ else _) as [ok|] in H; [|discriminate]. cbn [obind] in H. destruct ok; [|discriminate]. cbn [guard obind] in H.
  destruct (Z.eqb_spec (zlen out) 2) as [Eo|]; [|discriminate]. destruct (Z.eqb_spec (zlen kernel) 2) as [Ek|]; [|discriminate].
  destruct (Z.eqb_spec (zlen dilation) 2) as [Ed|]; [|discriminate]. destruct (Z.eqb_spec (zlen stride) 2) as [Es|]; [|discriminate].
  destruct (Z.eqb_spec (zlen padding) 2) as [Ep|]; [|discriminate]. cbn [guard obind] in H.
  destruct (zlen_2 out Eo) as (o0 & o1 & ->), (zlen_2 kernel Ek) as (k0 & k1 & ->), (zlen_2 dilation Ed) as (d0 & d1 & ->),
    (zlen_2 stride Es) as (s0 & s1 & ->), (zlen_2 padding Ep) as (p0 & p1 & ->).
  exists o0, o1, k0, k1, d0, d1, p0, p1, s0, s1.
  change (pyidx [k0; k1] 0) with (Some k0) in H. change (pyidx [k0; k1] 1) with (Some k1) in H.
  change (pyidx [d0; d1] 0) with (Some d0) in H. change (pyidx [d0; d1] 1) with (Some d1) in H.
  change (pyidx [p0; p1] 0) with (Some p0) in H. change (pyidx [p0; p1] 1) with (Some p1) in H.
  change (pyidx [s0; s1] 0) with (Some s0) in H. change (pyidx [s0; s1] 1) with (Some s1) in H. cbn [obind] in H.
  destruct (Z.ltb_spec 0 k0); [|discriminate]. destruct (Z.ltb_spec 0 k1); [|discriminate]. cbn [andb guard obind] in H.
  destruct (Z.ltb_spec 0 d0); [|discriminate]. destruct (Z.ltb_spec 0 d1); [|discriminate]. cbn [andb guard obind] in H.
  destruct (Z.leb_spec 0 p0); [|discriminate]. destruct (Z.leb_spec 0 p1); [|discriminate]. cbn [andb guard obind] in H.
  destruct (Z.ltb_spec 0 s0); [|discriminate]. destruct (Z.ltb_spec 0 s1); [|discriminate]. repeat (split; [auto|]). auto.
Qed.
(** Whenever the dilated kernel fits in the padded image, the columns must be its positions. *)
Theorem C84_col2im_partial : forall self out kernel dilation padding stride result,
  (forall i n k d p, nth_error out i = Some n -> nth_error kernel i = Some k -> nth_error dilation i = Some d ->
     nth_error padding i = Some p -> spans n k d p) ->
  (col2im self out kernel dilation padding stride = Some result <-> columns self out kernel dilation padding stride result).
Proof.
  intros self out kernel dilation padding stride result F. split.
  - intros H. destruct (col2im_needs _ _ _ _ _ _ _ H) as (batch & plane & len & o0 & o1 & k0 & k1 & d0 & d1 & p0 & p1 & s0 & s1 & -> & L & -> & -> & -> & -> & -> &
      K0 & K1 & D0 & D1 & P0 & P1 & S0 & S1).
    pose proof (F 0%nat o0 k0 d0 p0 eq_refl eq_refl eq_refl eq_refl) as F0. pose proof (F 1%nat o1 k1 d1 p1 eq_refl eq_refl eq_refl eq_refl) as F1.
    apply col2im_run in H; auto. destruct H as (H1 & H2 & H3 & c & H4 & H5).
    exists batch, plane, len, o0, o1, k0, k1, d0, d1, p0, p1, s0, s1, c. repeat (split; [auto|]). auto.
  - intros (batch & plane & len & o0 & o1 & k0 & k1 & d0 & d1 & p0 & p1 & s0 & s1 & c & -> & L & -> & -> & -> & -> & -> &
      K0 & K1 & D0 & D1 & P0 & P1 & S0 & S1 & H1 & H2 & H3 & H4 & H5).
    pose proof (F 0%nat o0 k0 d0 p0 eq_refl eq_refl eq_refl eq_refl) as F0. pose proof (F 1%nat o1 k1 d1 p1 eq_refl eq_refl eq_refl eq_refl) as F1.
    apply col2im_run; auto. split; auto. split; auto. split; auto. exists c. auto.
Qed.
(** A kernel that fits nowhere is accepted when it is too large by the same number both ways. *)
Theorem C84_col2im_no_position_refuted :
  col2im [9; 1] [1; 1] [3; 3] [1; 1] [0; 0] [1; 1] = Some [1; 1; 1] /\ blocks 1 3 1 0 1 = 0.
Proof. split; reflexivity. Qed.
Example C84_nonvacuous :
  unfold_shape [2; 7] (-1) 3 2 = Some [2; 3; 3] /\ unfold_shape [2; 7] 1 8 2 = None /\ windows 7 3 2 = 3 /\
  stft [2; 40] 8 None None (Some true) (Some true) false = Some [2; 5; 17] /\
  stft [40] 8 (Some 4) None (Some false) (Some false) true = Some [8; 11; 2] /\
  fft_rfft [4; 9] (-1) = Some [4; 5] /\ fft_rfft [4; 9] 2 = None /\
  col2im [2; 12; 9] [4; 4] [2; 2] [1; 1] [0; 0] [1; 1] = Some [2; 3; 4; 4] /\
  col2im [12; 8] [4; 4] [2; 2] [1; 1] [0; 0] [1; 1] = None.
Proof. repeat split; reflexivity. Qed.

Print Assumptions C84_windows_counted.
Print Assumptions C84_stft_centered_partial.
Print Assumptions C84_col2im_partial.
