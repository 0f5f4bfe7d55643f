(** Lemmas about the decompositions of elementwise operations (DecElemModel.v). *)
From Coq Require Import ZArith QArith Qround Qabs Qpower Bool List Lia Lqa.
From Verif Require Import TensorOps NumOps DecElemModel DecElemSpec.
Import ListNotations.
Open Scope Q_scope.

Lemma qlt_spec a b : reflect (a < b) (qlt a b).
Proof.
  unfold qlt. destruct (Qle_bool b a) eqn:H; constructor.
  - apply Qle_bool_iff in H. lra.
  - destruct (Qlt_le_dec a b) as [|L]; [assumption|]. apply Qle_bool_iff in L. congruence.
Qed.
Lemma qle_spec a b : reflect (a <= b) (Qle_bool a b).
Proof.
  destruct (Qle_bool a b) eqn:H; constructor.
  - now apply Qle_bool_iff.
  - intros L. apply Qle_bool_iff in L. congruence.
Qed.
Lemma qeq_spec a b : reflect (a == b) (Qeq_bool a b).
Proof.
  destruct (Qeq_bool a b) eqn:H; constructor.
  - now apply Qeq_bool_iff.
  - intros L. apply Qeq_bool_iff in L. congruence.
Qed.
Lemma alike_refl x : x ~= x.
Proof. destruct x; cbn; auto; reflexivity. Qed.
Lemma alike_of x y : x = y -> x ~= y.
Proof. intros ->. apply alike_refl. Qed.

Ltac qcase :=
  match goal with
  | |- context [qlt ?a ?b] => destruct (qlt_spec a b)
  | |- context [Qle_bool ?a ?b] => destruct (qle_spec a b)
  | |- context [Qeq_bool ?a ?b] => destruct (qeq_spec a b)
  | H : context [qlt ?a ?b] |- _ => destruct (qlt_spec a b)
  | H : context [Qeq_bool ?a ?b] |- _ => destruct (qeq_spec a b)
  end.
Ltac opened :=
  unfold dec_relu6, dec_hardswish, dec_hardsigmoid, dec_hardtanh, dec_leaky_relu, dec_rrelu, relu6_results, prelu_element,
    dec_threshold, torch_hardtanh, torch_hardsigmoid, torch_hardswish, torch_leaky_relu, torch_leaky_relu_backward,
    torch_prelu_element, torch_threshold, torch_hardshrink, relu, add, sub, gt, le, ne, int, inject_Z, select in *;
  cbn [lt eq neg plus mul div maximum minimum abs alike exp andb orb negb] in *; unfold signed in *.
Ltac zeroed :=
  match goal with H : ~ 0 < ?q, H' : ~ ?q < 0 |- _ => let E0 := fresh in assert (E0 : q == 0) by lra; rewrite E0; ring end.
Ltac grind := opened; repeat (qcase; cbn [lt eq neg plus mul div maximum minimum abs alike exp andb orb negb]; opened); try exact I; try reflexivity; try (exfalso; lra); try lra; try nra; try zeroed.

Lemma hardtanh_correct x lo hi : lo <= hi -> dec_hardtanh x (Fin lo) (Fin hi) ~= torch_hardtanh x (Fin lo) (Fin hi).
Proof. intros L. destruct x; grind. Qed.
Lemma relu6_correct x : dec_relu6 x ~= torch_hardtanh x (int 0) (int 6).
Proof. destruct x; grind. Qed.
Lemma hardsigmoid_correct x : dec_hardsigmoid x ~= torch_hardsigmoid x.
Proof. destruct x; grind; unfold Qdiv in *; change (/ (6 # 1)) with (1 # 6) in *; change (/ 6) with (1 # 6) in *; lra. Qed.
Lemma hardswish_correct x : x <> MInf -> dec_hardswish x ~= torch_hardswish x.
Proof. intros Hx. destruct x; try congruence; grind; unfold Qdiv in *; change (/ (6 # 1)) with (1 # 6) in *; change (/ 6) with (1 # 6) in *; try lra; nra. Qed.
Lemma leaky_relu_correct x s : dec_leaky_relu x (Fin s) ~= torch_leaky_relu x (Fin s).
Proof. destruct x; grind. Qed.

Lemma leaky_relu_backward_ignores g x s : 0 <= g -> 0 < x ->
  exists r, dec_leaky_relu_backward (Fin g) (Fin x) (Fin s) (Some false) = Some r /\ r ~= torch_leaky_relu_backward (Fin g) (Fin x) (Fin s).
Proof. intros Hg Hx. unfold dec_leaky_relu_backward. eexists. split; [reflexivity|]. grind. Qed.
Lemma rrelu_correct x lower upper sample (training : bool) : let slope := (if training then sample else (lower + upper) / 2) in
  0 < slope \/ 0 <= slope /\ x <> PInf ->
  exists r, dec_rrelu x (Fin lower) (Fin upper) (Fin sample) (Some training) = Some r /\ r ~= torch_rrelu x lower upper sample training.
Proof.
  cbv zeta. intros Hs. unfold dec_rrelu. eexists. split; [reflexivity|].
  assert (E0 : (if training then Fin sample else div (plus (Fin lower) (Fin upper)) (int 2))
               = Fin (if training then sample else (lower + upper) / 2)) by now destruct training.
  rewrite E0. unfold torch_rrelu. generalize dependent (if training then sample else (lower + upper) / 2). intros a Ha _.
  destruct x; [grind| |grind|]; destruct Ha as [Ha|[Ha Hx]]; try congruence; grind.
Qed.
Lemma prelu_element_correct x w : prelu_element x (Fin w) ~= torch_prelu_element x (Fin w).
Proof. destruct x; grind. Qed.
Lemma softshrink_above x l : 0 <= l -> - l <= x ->
  exists r, dec_softshrink (Fin x) (Some l) = Some r /\ r ~= Fin (torch_softshrink x l).
Proof. intros Hl Hx. eexists. split; [reflexivity|]. unfold torch_softshrink. grind. Qed.
Lemma softshrink_below x l : 0 < l -> x < - l ->
  exists r, dec_softshrink (Fin x) (Some l) = Some r /\ r ~= Fin (torch_softshrink x l - 2 * l).
Proof. intros Hl Hx. eexists. split; [reflexivity|]. unfold torch_softshrink. grind. Qed.
Lemma hardshrink_correct x l : x <> NaN -> exists r, dec_hardshrink x (Some l) = Some r /\ r ~= torch_hardshrink x l.
Proof. intros Hx. eexists. split; [reflexivity|]. destruct x; try congruence; grind. Qed.
Lemma threshold_correct x t v : x <> NaN -> t <> NaN -> dec_threshold x t v ~= torch_threshold x t v.
Proof. intros Hx Ht. destruct x, t; try congruence; grind; try apply alike_refl. Qed.

Lemma elu_correct e x alpha scale input_scale : exp_like e ->
  dec_elu e x (Fin alpha) (Fin scale) (Fin input_scale) ~= torch_elu e x alpha scale input_scale.
Proof.
  intros (P & E0 & _ & _).
  assert (Z0 : e (0 * input_scale) == 1) by (rewrite <- E0; apply P; ring).
  unfold dec_elu, torch_elu. destruct x as [| | |q].
  - exact I.
  - opened. qcase; [exact I|]. qcase; exact I.
  - opened. qcase.
    + cbn [exp neg plus mul alike]. ring.
    + qcase; cbn [exp neg plus mul alike signed]; [|exact I].
      grind; assert (Z1 : scale == 0) by lra; assert (Z2 : alpha * scale == 0) by (rewrite Z1; ring); lra.
  - opened. qcase; cbn [exp neg plus mul alike signed].
    + destruct (qlt_spec q 0); [exfalso; lra|]. destruct (qlt_spec q (0 # 1)); [exfalso; lra|]. cbn [exp neg plus mul alike signed].
      rewrite Z0. ring.
    + destruct (qlt_spec q (0 # 1)); destruct (qlt_spec q 0); try (exfalso; lra); cbn [exp neg plus mul alike signed].
      * ring.
      * rewrite Z0. assert (q == 0) by lra. rewrite H. ring.
Qed.

Lemma over_positive q a : 0 < a -> (0 < q -> 0 < q / a) /\ (q < 0 -> q / a < 0).
Proof.
  intros Ha. assert (Hi : 0 < / a) by now apply Qinv_lt_0_compat. unfold Qdiv. split; intros; nra.
Qed.
Lemma over_negative q a : a < 0 -> (0 < q -> q / a < 0) /\ (q < 0 -> 0 < q / a).
Proof.
  intros Ha. assert (Hi : / a < 0).
  { assert (H : 0 < / (- a)) by (apply Qinv_lt_0_compat; lra).
    assert (E0 : / (- a) == - / a) by (field; lra). lra. }
  unfold Qdiv. split; intros; nra.
Qed.
Lemma celu_correct e x alpha : exp_like e -> ~ alpha == 0 -> dec_celu e x (Fin alpha) ~= torch_elu e x alpha 1 (/ alpha).
Proof.
  intros (P & E0 & B & A) Ha. unfold dec_celu, torch_elu.
  pose proof (over_positive 1 alpha) as IP. pose proof (over_negative 1 alpha) as IN.
  assert (Ei : 1 / alpha == / alpha) by (field; exact Ha).
  destruct x as [| | |q].
  - exact I.
  - opened. qcase; cbn [exp neg plus mul alike minimum lt]; unfold signed; repeat (qcase; cbn [exp neg plus mul alike minimum lt]); try exact I; exfalso; lra.
  - opened. qcase; cbn [exp neg plus mul alike minimum lt signed].
    + destruct (IN ltac:(assumption)) as [IN1 _]. specialize (IN1 ltac:(lra)). rewrite Ei in IN1.
      unfold signed; repeat (qcase; cbn [exp neg plus mul alike minimum lt]; unfold signed); try exact I; exfalso; try lra; nra.
    + destruct (IP ltac:(lra)) as [IP1 _]. specialize (IP1 ltac:(lra)). rewrite Ei in IP1.
      unfold signed; repeat (qcase; cbn [exp neg plus mul alike minimum lt]; unfold signed); try exact I; try (exfalso; lra); lra.
  - opened. destruct (qeq_spec alpha 0) as [E1|_]; [contradiction|].
    assert (Em : e (q / alpha) == e (q * / alpha)) by reflexivity.
    destruct (Qlt_le_dec 0 alpha) as [L|L].
    + destruct (over_positive q alpha L) as [D1 D2].
      assert (F1 : 0 < q -> 1 < e (q / alpha)) by auto. assert (F2 : q < 0 -> e (q / alpha) < 1) by auto.
      assert (F3 : q == 0 -> e (q / alpha) == 1).
      { intros Eq. rewrite <- E0. apply P. rewrite Eq. field. exact Ha. }
      cbn [exp neg plus mul alike minimum lt maximum]. fold (q / alpha). generalize dependent (e (q / alpha)). intros v _ F1 F2 F3.
      destruct (Q_dec q 0) as [[S1|S1]|S1]; [specialize (F2 S1)|specialize (F1 S1)|specialize (F3 S1)];
        repeat (qcase; cbn [exp neg plus mul alike minimum lt maximum]); try (exfalso; lra); try nra.
    + assert (L1 : alpha < 0) by (destruct (Qlt_le_dec alpha 0); [assumption|exfalso; apply Ha; lra]).
      destruct (over_negative q alpha L1) as [D1 D2].
      assert (F1 : 0 < q -> e (q / alpha) < 1) by auto. assert (F2 : q < 0 -> 1 < e (q / alpha)) by auto.
      assert (F3 : q == 0 -> e (q / alpha) == 1).
      { intros Eq. rewrite <- E0. apply P. rewrite Eq. field. exact Ha. }
      cbn [exp neg plus mul alike minimum lt maximum]. fold (q / alpha). generalize dependent (e (q / alpha)). intros v _ F1 F2 F3.
      destruct (Q_dec q 0) as [[S1|S1]|S1]; [specialize (F2 S1)|specialize (F1 S1)|specialize (F3 S1)];
        repeat (qcase; cbn [exp neg plus mul alike minimum lt maximum]); try (exfalso; lra); try nra.
Qed.

Lemma selu_correct e x : exp_like e -> dec_selu e x ~= torch_elu e x selu_alpha selu_scale 1.
Proof.
  intros (P & E0 & _ & _).
  assert (A0 : 0 < selu_alpha) by reflexivity. assert (S0 : 0 < selu_scale) by reflexivity.
  unfold dec_selu, torch_elu. generalize dependent selu_alpha. generalize dependent selu_scale. intros s S0 a A0.
  destruct x as [| | |q]; opened.
  - exact I.
  - repeat (qcase; cbn [exp neg plus mul alike minimum lt maximum]); try exact I; exfalso; lra.
  - repeat (qcase; cbn [exp neg plus mul alike minimum lt maximum]); try exact I; try (exfalso; lra); ring.
  - assert (E1 : e (q * 1) == e q) by (apply P; ring).
    repeat (qcase; cbn [exp neg plus mul alike minimum lt maximum]); try (exfalso; lra).
    + rewrite E0. ring.
    + rewrite E1. ring.
    + rewrite E0. assert (Eq : q == 0) by lra. rewrite Eq. ring.
Qed.
Lemma rrelu_noise x noise lower upper sample (training : bool) :
  exists r, dec_rrelu_with_noise_functional x noise lower upper sample (Some training) = Some (r, torch_rrelu_noise x noise sample training)
            /\ dec_rrelu x lower upper sample (Some training) = Some r.
Proof. destruct training; eexists; split; reflexivity. Qed.
Lemma rrelu_backward_correct grad x noise lower upper (training : bool) :
  exists b, dec_rrelu_with_noise_backward grad x noise (Some lower) (Some upper) (Some training) (Some false) = Some b
    /\ match b with Product r => r | LeakyBackward g y s => torch_leaky_relu_backward g y s end
       ~= torch_rrelu_backward grad x noise lower upper training.
Proof.
  unfold dec_rrelu_with_noise_backward, torch_rrelu_backward.
  destruct (training && qlt (1 # 1000000) (upper - lower)); eexists; (split; [reflexivity|]); [apply alike_refl|].
  assert (Es : (upper + lower) / 2 == (lower + upper) / 2) by (field).
  unfold torch_leaky_relu_backward. destruct (gt x (int 0)); [apply alike_refl|].
  generalize dependent ((upper + lower) / 2). generalize dependent ((lower + upper) / 2). intros s t Es.
  destruct grad; cbn [mul alike]; auto; unfold signed; repeat (qcase; cbn [neg alike]); try exact I; try (exfalso; lra).
  rewrite Es. reflexivity.
Qed.

(** * Broadcasting *)
Lemma stretch_nil a : stretch a [] = Some a.
Proof. destruct a; reflexivity. Qed.
Lemma stretch_same a : stretch a a = Some a.
Proof. induction a as [|x a IH]; cbn [stretch]; [reflexivity|]. now rewrite IH, Z.eqb_refl. Qed.
Lemma broadcast_scalar s : broadcast s [] = Some s.
Proof. unfold broadcast. cbn [rev]. rewrite stretch_nil. cbn. now rewrite rev_involutive. Qed.
Lemma broadcast_same s : broadcast s s = Some s.
Proof. unfold broadcast. rewrite stretch_same. cbn. now rewrite rev_involutive. Qed.
Lemma broadcast_one s : s <> [] -> broadcast s [1%Z] = Some s.
Proof.
  intros Hs. unfold broadcast. cbn [rev app].
  destruct (rev s) as [|x r] eqn:E0.
  - exfalso. apply Hs. rewrite <- (rev_involutive s), E0. reflexivity.
  - cbn [stretch]. rewrite stretch_nil.
    destruct (Z.eqb_spec x 1) as [->|].
    + cbn [option_map]. rewrite <- E0, rev_involutive. reflexivity.
    + change (Z.eqb 1 1) with true. cbn [option_map]. rewrite <- E0, rev_involutive. reflexivity.
Qed.
Lemma broadcast_channels n c : broadcast [n; c] [c] = Some [n; c].
Proof. unfold broadcast. cbn [rev app stretch]. now rewrite Z.eqb_refl. Qed.
Lemma from_within s ix : within s ix -> from s ix = ix.
Proof.
  intros W. induction W as [|n i s ix H W IH]; cbn [from]; [reflexivity|]. rewrite IH. destruct (Z.eqb_spec n 1); [|reflexivity]. f_equal. lia.
Qed.
Lemma within_length s ix : within s ix -> length ix = length s.
Proof. intros W. induction W; cbn [length]; congruence. Qed.
Lemma at_own {A} (t : tensor A) ix : within (sizes t) ix -> at_broadcast t ix = elt t ix.
Proof.
  intros W. unfold at_broadcast. rewrite (within_length _ _ W), Nat.sub_diag. cbn [skipn]. now rewrite from_within.
Qed.
Lemma at_scalar {A} (t : tensor A) ix : sizes t = [] -> at_broadcast t ix = elt t [].
Proof. intros S0. unfold at_broadcast. rewrite S0. reflexivity. Qed.
Lemma last_skipn ix : ix <> [] -> exists i : Z, skipn (length ix - 1) ix = [i].
Proof.
  intros Hx. destruct (exists_last Hx) as (l & i & ->). exists i.
  rewrite app_length. cbn [length]. replace (length l + 1 - 1)%nat with (length l) by lia.
  rewrite skipn_app, skipn_all, Nat.sub_diag. reflexivity.
Qed.
Lemma at_one {A} (t : tensor A) ix : sizes t = [1%Z] -> ix <> [] -> at_broadcast t ix = elt t [0%Z].
Proof.
  intros S0 Hx. unfold at_broadcast. rewrite S0. cbn [length]. destruct (last_skipn ix Hx) as [i ->]. reflexivity.
Qed.

(** The same tensor of numbers. *)
Definition same_nums (t u : tensor num) : Prop := sizes t = sizes u /\ forall ix, within (sizes t) ix -> elt t ix ~= elt u ix.
Lemma prelu_shape input weight : broadcast (sizes input) (sizes weight) = Some (sizes input) ->
  exists r, dec_prelu input weight = Some r /\ sizes r = sizes input
    /\ forall ix, within (sizes input) ix -> elt r ix = prelu_element (elt input ix) (at_broadcast weight ix).
Proof.
  intros B. unfold dec_prelu, map2 at 1. rewrite B. unfold map2, map1. cbn [sizes]. rewrite broadcast_same. cbn [sizes]. rewrite broadcast_same.
  eexists. split; [reflexivity|]. split; [reflexivity|]. intros ix W. cbn [elt].
  rewrite !at_own by (cbn [sizes]; exact W). cbn [elt fst snd]. rewrite !at_own by (cbn [sizes]; exact W). cbn [elt fst snd].
  rewrite !at_own by (cbn [sizes]; exact W). reflexivity.
Qed.
Lemma prelu_one_weight input weight w : sizes weight = [] \/ sizes weight = [1%Z] /\ sizes input <> [] ->
  (forall ix, elt weight ix = Fin w) ->
  exists r u, dec_prelu input weight = Some r /\ torch_prelu input weight = Some u /\ same_nums r u.
Proof.
  intros Hs Hw.
  assert (B : broadcast (sizes input) (sizes weight) = Some (sizes input)).
  { destruct Hs as [->|[-> Hi]]; [apply broadcast_scalar|now apply broadcast_one]. }
  destruct (prelu_shape _ _ B) as (r & R & Rs & Re). exists r. unfold torch_prelu.
  destruct Hs as [S0|[S0 Hi]]; rewrite S0; cbn; eexists; (split; [exact R|]); (split; [reflexivity|]);
    (split; [exact Rs|]); intros ix W; cbn [elt]; rewrite Rs in W; rewrite (Re ix W); unfold at_broadcast; rewrite !Hw; apply prelu_element_correct.
Qed.
Lemma prelu_matrix input weight n c : sizes input = [n; c] -> sizes weight = [c] ->
  (forall ix, finite (elt weight ix)) ->
  exists r u, dec_prelu input weight = Some r /\ torch_prelu input weight = Some u /\ same_nums r u.
Proof.
  intros Si Sw Hw.
  assert (B : broadcast (sizes input) (sizes weight) = Some (sizes input)) by (rewrite Si, Sw; apply broadcast_channels).
  destruct (prelu_shape _ _ B) as (r & R & Rs & Re). exists r. unfold torch_prelu. rewrite Si, Sw.
  assert (At : forall ix, within [n; c] ix -> at_broadcast weight ix = elt weight [nth 1 ix 0%Z]).
  { intros ix W. inversion W as [|? i ? ? Hi W1]; subst. inversion W1 as [|? j ? ? Hj W2]; subst. inversion W2; subst.
    unfold at_broadcast. rewrite Sw. cbn. destruct (Z.eqb_spec c 1); [|reflexivity]. replace j with 0%Z by lia. reflexivity. }
  destruct (Z.eqb_spec c 1) as [->|Hc].
  - eexists. split; [exact R|]. split; [reflexivity|]. split; [cbn [sizes]; congruence|]. intros ix W. cbn [elt].
    rewrite Rs in W. rewrite (Re ix W). rewrite Si in W. rewrite (At ix W).
    inversion W as [|? i ? ? Hi W1]; subst. inversion W1 as [|? j ? ? Hj W2]; subst. inversion W2; subst. cbn [nth]. replace j with 0%Z by lia.
    destruct (Hw [0%Z]) as [w ->]. apply prelu_element_correct.
  - rewrite Z.eqb_refl. cbn [andb negb]. eexists. split; [exact R|]. split; [reflexivity|]. split; [cbn [sizes]; congruence|].
    intros ix W. cbn [elt]. rewrite Rs in W. rewrite (Re ix W). rewrite Si in W. rewrite (At ix W).
    destruct (Hw [nth 1 ix 0%Z]) as [w ->]. apply prelu_element_correct.
Qed.

(** * Other operations *)
Lemma isnan_correct x : dec_isnan x = true <-> x = NaN.
Proof.
  unfold dec_isnan, ne. destruct x as [| | |q]; cbn; split; try congruence; try reflexivity.
  - destruct (qeq_spec q q) as [|H]; [discriminate|]. exfalso. apply H. reflexivity.
Qed.
Lemma isinf_correct x : dec_isinf x = true <-> x = PInf \/ x = MInf.
Proof. destruct x; cbn; split; intros H; try congruence; try (destruct H; congruence); auto. Qed.
Lemma isneginf_correct x : dec_isneginf x = true <-> x = MInf.
Proof. destruct x; cbn; split; congruence. Qed.
Lemma isposinf_correct x : dec_isposinf x = true <-> x = PInf.
Proof. destruct x; cbn; split; congruence. Qed.
Lemma isnan_fin q : dec_isnan (Fin q) = false.
Proof. destruct (dec_isnan (Fin q)) eqn:H; [|reflexivity]. apply isnan_correct in H. discriminate. Qed.

Lemma nan_to_num_correct largest x nan posinf neginf :
  nan <> Some PInf -> nan <> Some MInf -> posinf <> Some MInf ->
  dec_nan_to_num largest x nan posinf neginf = torch_nan_to_num largest x nan posinf neginf.
Proof.
  intros N1 N2 P1. unfold dec_nan_to_num, torch_nan_to_num, select.
  destruct x as [| | |q]; cbn [dec_isnan ne eq negb].
  - change (dec_isnan NaN) with true. destruct nan as [[| | |v]|]; try congruence; reflexivity.
  - change (dec_isnan PInf) with false. destruct posinf as [[| | |v]|]; try congruence; reflexivity.
  - reflexivity.
  - rewrite isnan_fin. reflexivity.
Qed.

Lemma sign_of q : (q < 0 -> Z.sgn (Qnum q) = (-1)%Z) /\ (0 < q -> Z.sgn (Qnum q) = 1%Z) /\ (q == 0 -> Z.sgn (Qnum q) = 0%Z).
Proof.
  destruct q as [n d]. unfold Qlt, Qeq. cbn [Qnum Qden]. rewrite !Z.mul_1_r, !Z.mul_0_l. split; [|split]; intros H.
  - apply Z.sgn_neg. lia.
  - apply Z.sgn_pos. lia.
  - rewrite H. reflexivity.
Qed.
Lemma sgn_correct x : dec_sgn x ~= torch_sgn x.
Proof.
  destruct x as [| | |q]; try reflexivity. unfold dec_sgn, torch_sgn. opened. destruct (sign_of q) as (S1 & S2 & S3).
  repeat (qcase; cbn [alike]).
  - rewrite S1 by assumption. reflexivity.
  - rewrite S2 by assumption. reflexivity.
  - rewrite S3 by lra. reflexivity.
Qed.
Lemma sgn_same x : sgn x = dec_sgn x.
Proof.
  unfold sgn, dec_sgn, select, gt. destruct x as [| | |q]; try reflexivity.
  cbn. repeat qcase; try reflexivity; exfalso; unfold inject_Z in *; lra.
Qed.
(** The integer part of a rational. *)
Definition whole (q : Q) : Z := Z.quot (Qnum q) (Zpos (Qden q)).
Lemma trunc_correct x : dec_trunc x ~= torch_trunc x.
Proof.
  destruct x as [| | |q]; try reflexivity. unfold dec_trunc, torch_trunc, sgn. cbn [abs floor lt].
  unfold int. cbn [lt]. change (inject_Z 0) with 0.
  destruct q as [n d]. cbn [Qnum Qden].
  destruct (qlt_spec 0 (n # d)) as [H|H].
  - destruct (qlt_spec (n # d) 0); [exfalso; lra|]. cbn [mul alike]. unfold Qfloor.
    assert (0 < n)%Z by (unfold Qlt in H; cbn in H; lia).
    rewrite Z.quot_div_nonneg by lia. unfold Qeq. cbn. destruct (n / Z.pos d)%Z; reflexivity.
  - destruct (qlt_spec (n # d) 0) as [L|L].
    + cbn [mul alike]. unfold Qopp, Qfloor. cbn [Qnum Qden].
      assert (n < 0)%Z by (unfold Qlt in L; cbn in L; lia).
      replace n with (- - n)%Z at 2 by lia. rewrite Z.quot_opp_l by lia. rewrite Z.quot_div_nonneg by lia.
      unfold Qeq. cbn [Qmult inject_Z Qnum Qden]. lia.
    + cbn [mul alike]. assert (n = 0)%Z by (unfold Qlt in H, L; cbn in H, L; lia). subst n. reflexivity.
Qed.
Lemma whole_close q : 0 <= (q - inject_Z (whole q)) * q /\ Qabs (q - inject_Z (whole q)) < 1.
Proof.
  destruct q as [n d]. unfold whole. cbn [Qnum Qden].
  pose proof (Z.quot_rem' n (Zpos d)) as E0. pose proof (Z.rem_bound_abs n (Zpos d) ltac:(lia)) as B.
  pose proof (Z.rem_sign_nz n (Zpos d) ltac:(lia)) as S0.
  assert (E1 : (n # d) - inject_Z (Z.quot n (Zpos d)) == Z.rem n (Zpos d) # d).
  { unfold Qminus, Qplus, Qopp, inject_Z, Qeq. cbn [Qnum Qden]. nia. }
  split.
  - rewrite E1. unfold Qle. cbn [Qnum Qden Qmult]. 
    assert (0 <= Z.rem n (Zpos d) * n)%Z.
    { destruct (Z.eq_dec (Z.rem n (Zpos d)) 0) as [->|Hn]; [lia|]. specialize (S0 Hn).
      destruct (Z.sgn_spec (Z.rem n (Zpos d))) as [[? E2]|[[? E2]|[? E2]]]; destruct (Z.sgn_spec n) as [[? E3]|[[? E3]|[? E3]]]; try lia; nia. }
    lia.
  - rewrite E1. unfold Qabs, Qlt. cbn [Qnum Qden]. lia.
Qed.
Lemma trunc_fin q : exists t, dec_trunc (Fin q) = Fin t /\ t == inject_Z (whole q).
Proof.
  pose proof (trunc_correct (Fin q)) as H. unfold torch_trunc in H. destruct (dec_trunc (Fin q)); try contradiction. exists q0. split; [reflexivity|]. exact H.
Qed.
Lemma frac_correct q : exists r, dec_frac (Fin q) = Fin r /\ 0 <= r * q /\ Qabs r < 1 /\ q == r + inject_Z (whole q).
Proof.
  destruct (trunc_fin q) as (t & T & Et). unfold dec_frac. rewrite T. cbn. eexists. split; [reflexivity|].
  destruct (whole_close q) as [W1 W2].
  assert (Er : q + - (inject_Z 1 * t) == q - inject_Z (whole q)) by (change (inject_Z 1) with 1; rewrite Et; ring).
  rewrite Er. split; [assumption|]. split; [assumption|ring].
Qed.
Lemma fmod_correct x y : ~ y == 0 -> exists r, dec_fmod (Fin x) (Fin y) = Fin r /\ is_fmod x y r.
Proof.
  intros Hy. unfold dec_fmod, sub. cbn [div]. destruct (qeq_spec y 0); [contradiction|].
  destruct (trunc_fin (x / y)) as (t & T & Et). rewrite T. cbn. eexists. split; [reflexivity|].
  destruct (whole_close (x / y)) as [W1 W2]. set (k := whole (x / y)) in *.
  assert (Er : x + - (inject_Z 1 * (t * y)) == (x / y - inject_Z k) * y).
  { change (inject_Z 1) with 1. rewrite Et. field. exact Hy. }
  assert (Ex : x == x / y * y) by (field; exact Hy).
  split; [|split].
  - rewrite Er. set (f := x / y - inject_Z k) in *. set (z := x / y) in *. rewrite Ex.
    assert (Q0 : 0 <= (f * z) * (y * y)) by (apply Qmult_le_0_compat; [assumption|nra]).
    assert (E1 : f * y * (z * y) == f * z * (y * y)) by ring. rewrite E1. exact Q0.
  - rewrite Er, Qabs_Qmult. set (f := Qabs (x / y - inject_Z k)) in *.
    assert (0 < Qabs y). { destruct (Q_dec (Qabs y) 0) as [[L|L]|L]; [pose proof (Qabs_nonneg y); exfalso; lra|assumption|].
      exfalso. apply Hy. pose proof (Qle_Qabs y). pose proof (Qle_Qabs (- y)) as L2. rewrite Qabs_opp in L2. lra. }
    nra.
  - exists k. rewrite Er. rewrite Ex at 1. ring.
Qed.
Lemma fmod_int_correct x y r : dec_fmod_int x y = Some r <-> (y <> 0 /\ is_fmod_int x y r)%Z.
Proof.
  unfold dec_fmod_int, is_fmod_int. destruct (Z.eqb_spec y 0) as [->|Hy].
  - split; [discriminate|]. intros [H _]. contradiction.
  - pose proof (Z.quot_rem' x y) as E0. pose proof (Z.rem_bound_abs x y Hy) as B. pose proof (Z.rem_sign_nz x y Hy) as S0.
    assert (E1 : (x - Z.quot x y * y = Z.rem x y)%Z) by lia. rewrite E1.
    assert (M : (0 <= Z.rem x y * x)%Z).
    { destruct (Z.eq_dec (Z.rem x y) 0) as [->|Hn]; [lia|]. specialize (S0 Hn).
      destruct (Z.sgn_spec (Z.rem x y)) as [[? E2]|[[? E2]|[? E2]]]; destruct (Z.sgn_spec x) as [[? E3]|[[? E3]|[? E3]]]; try lia; nia. }
    assert (D : (y | x - Z.rem x y)%Z) by (exists (Z.quot x y); lia).
    split.
    + intros H. injection H as <-. auto.
    + intros (_ & R1 & R2 & [k R3]). f_equal. destruct D as [j D].
      set (m := Z.rem x y) in *. assert (E2 : (m - r = (k - j) * y)%Z) by lia.
      clear S0 E1 E0. clearbody m.
      assert (K : (k - j = 0 \/ k - j = 1 \/ k - j = -1)%Z) by nia.
      destruct (Z.eq_dec x 0) as [X0|X0].
      { subst x. assert (m = 0 \/ m <> 0)%Z by lia. assert (Hm : m = ((- j) * y)%Z) by lia. assert (Hr : r = ((- k) * y)%Z) by lia.
        assert (j = 0)%Z by nia. assert (k = 0)%Z by nia. lia. }
      destruct K as [K|[K|K]]; rewrite K in E2; [lia| |].
      * exfalso. destruct (Z.lt_ge_cases x 0).
        -- assert (m <= 0)%Z by (clear - M H; nia). assert (r <= 0)%Z by (clear - R1 H; nia). lia.
        -- assert (0 <= m)%Z by (clear - M H X0; nia). assert (0 <= r)%Z by (clear - R1 H X0; nia). lia.
      * exfalso. destruct (Z.lt_ge_cases x 0).
        -- assert (m <= 0)%Z by (clear - M H; nia). assert (r <= 0)%Z by (clear - R1 H; nia). lia.
        -- assert (0 <= m)%Z by (clear - M H X0; nia). assert (0 <= r)%Z by (clear - R1 H X0; nia). lia.
Qed.
Lemma heaviside_correct x v : dec_heaviside x v = torch_heaviside x v.
Proof.
  destruct x as [| | |q]; try reflexivity. unfold dec_heaviside, torch_heaviside. rewrite isnan_fin. unfold select, int. cbn [eq lt orb].
  change (inject_Z 0) with 0.
  destruct (Qcompare_spec q 0) as [H|H|H]; repeat qcase; try reflexivity; try contradiction; exfalso; lra.
Qed.
Lemma fmax_correct x y : dec_fmax x y = torch_fmax x y.
Proof.
  unfold dec_fmax, dec_fmaxmin, torch_fmax, select.
  destruct x as [| | |a], y as [| | |b]; rewrite ?isnan_fin; try reflexivity.
Qed.
Lemma fmin_correct x y : dec_fmin x y = torch_fmin x y.
Proof.
  unfold dec_fmin, dec_fmaxmin, torch_fmin, select.
  destruct x as [| | |a], y as [| | |b]; rewrite ?isnan_fin; try reflexivity.
Qed.
Lemma nearest_correct q : is_nearest q (nearest q).
Proof.
  pose proof (Qfloor_le q) as F1. pose proof (Qlt_floor q) as F2. rewrite inject_Z_plus in F2.
  change (inject_Z 1) with 1 in F2.
  assert (A1 : forall z, 0 <= z -> Qabs z == z) by (intros; now apply Qabs_pos).
  assert (A2 : forall z, z <= 0 -> Qabs z == - z) by (intros; now apply Qabs_neg).
  unfold is_nearest, nearest.
  destruct (qlt_spec (q - inject_Z (Qfloor q)) (1 # 2)).
  - rewrite A1 by lra. split; [lra|]. intros. exfalso. lra.
  - destruct (qlt_spec (1 # 2) (q - inject_Z (Qfloor q))).
    + rewrite inject_Z_plus. change (inject_Z 1) with 1. rewrite A2 by lra. split; [lra|]. intros. exfalso. lra.
    + destruct (Z.even (Qfloor q)) eqn:Ev.
      * rewrite A1 by lra. split; [lra|]. intros _. now apply Z.even_spec.
      * rewrite inject_Z_plus. change (inject_Z 1) with 1. rewrite A2 by lra. split; [lra|]. intros _.
        apply Z.even_spec. rewrite Z.even_add, Ev. reflexivity.
Qed.
Lemma nearest_unique q k k' : is_nearest q k -> is_nearest q k' -> k = k'.
Proof.
  assert (W : forall a b, is_nearest q a -> is_nearest q b -> (a < b)%Z -> False).
  { intros a b [A1 A2] [B1 B2] L.
    assert (Hq : inject_Z a + 1 <= inject_Z b) by (change 1 with (inject_Z 1); rewrite <- inject_Z_plus; rewrite <- Zle_Qle; lia).
    apply Qabs_Qle_condition in A1. apply Qabs_Qle_condition in B1.
    assert (Ea : q - inject_Z a == 1 # 2) by lra. assert (Eb : q - inject_Z b == - (1 # 2)) by lra.
    assert (Va : Z.Even a) by (apply A2; rewrite Ea; reflexivity).
    assert (Vb : Z.Even b) by (apply B2; rewrite Eb; reflexivity).
    assert (E1 : inject_Z b == inject_Z (a + 1)) by (rewrite inject_Z_plus; change (inject_Z 1) with 1; lra).
    assert (E2 : b = (a + 1)%Z) by (unfold Qeq in E1; cbn in E1; lia).
    destruct Va as [u Hu], Vb as [v Hv]. lia. }
  intros A B. destruct (Z.lt_trichotomy k k') as [L|[L|L]]; [exfalso; eauto|assumption|exfalso; eauto].
Qed.
Lemma power_positive d : 0 < Qpower 10 d.
Proof. apply Qpower_0_lt. reflexivity. Qed.
Lemma round_decimals_correct q d k : is_nearest (q * Qpower 10 d) k ->
  exists r, dec_round_decimals (Fin q) (Some d) = Some (Fin r) /\ r == inject_Z k / Qpower 10 d.
Proof.
  intros K. unfold dec_round_decimals. destruct (Z.eqb_spec d 0) as [->|Hd].
  - exists (inject_Z (nearest q)). split; [reflexivity|].
    assert (E1 : k = nearest q).
    { apply (nearest_unique q); [|apply nearest_correct]. destruct K as [K1 K2]. change (Qpower 10 0) with 1 in *.
      assert (Eq : q * 1 == q) by ring. unfold is_nearest. rewrite Eq in K1, K2. auto. }
    subst k. change (Qpower 10 0) with 1. field.
  - cbn [mul round]. unfold int. cbn [div]. pose proof (power_positive d) as P0. destruct (qeq_spec (Qpower 10 d) 0); [exfalso; lra|].
    eexists. split; [reflexivity|]. rewrite (nearest_unique _ _ _ K (nearest_correct _)). reflexivity.
Qed.
Lemma lerp_correct a b w : exists r, dec_lerp (Fin a) (Fin b) (Fin w) = Fin r /\ r == torch_lerp a b w.
Proof.
  unfold dec_lerp. cbn. eexists. split; [reflexivity|]. change (inject_Z 1) with 1. unfold torch_lerp. destruct (qlt w (1 # 2)); ring.
Qed.
Lemma inject_Z_minus_ a b : inject_Z (a - b) == inject_Z a - inject_Z b.
Proof. unfold Qminus. rewrite <- inject_Z_opp, <- inject_Z_plus. reflexivity. Qed.
Lemma fake_quantize_correct x scale zp lo hi k : ~ scale == 0 -> is_nearest (x / scale) k ->
  dec_fake_quantize (Fin x) (Fin scale) zp lo hi ~= Fin (torch_fake_quantize x scale zp lo hi k).
Proof.
  intros Hs K. unfold dec_fake_quantize, torch_fake_quantize, add, sub. cbn [div]. destruct (qeq_spec scale 0); [contradiction|].
  cbn [round]. rewrite <- (nearest_unique _ _ _ K (nearest_correct _)). unfold int. cbn [mul plus maximum minimum lt neg].
  change (inject_Z 1) with 1.
  assert (E1 : inject_Z k + 1 * inject_Z zp == inject_Z (k + zp)) by (rewrite inject_Z_plus; ring).
  assert (I0 : forall a b : Z, (a < b)%Z <-> inject_Z a < inject_Z b) by (intros; rewrite <- Zlt_Qlt; reflexivity).
  destruct (qlt_spec (inject_Z k + 1 * inject_Z zp) (inject_Z lo)) as [L|L]; cbn [plus maximum minimum lt neg mul].
  - rewrite E1 in L. apply I0 in L. destruct (qlt_spec (inject_Z hi) (inject_Z lo)) as [M|M]; cbn [plus neg mul alike].
    + apply I0 in M. replace (Z.min hi (Z.max lo (k + zp))) with hi by lia. rewrite inject_Z_minus_. ring.
    + rewrite <- I0 in M. replace (Z.min hi (Z.max lo (k + zp))) with lo by lia. rewrite inject_Z_minus_. ring.
  - rewrite E1 in L. rewrite <- I0 in L. destruct (qlt_spec (inject_Z hi) (inject_Z k + 1 * inject_Z zp)) as [M|M]; cbn [plus neg mul alike].
    + rewrite E1 in M. apply I0 in M. replace (Z.min hi (Z.max lo (k + zp))) with hi by lia. rewrite inject_Z_minus_. ring.
    + rewrite E1 in M. rewrite <- I0 in M. replace (Z.min hi (Z.max lo (k + zp))) with (k + zp)%Z by lia. rewrite inject_Z_minus_, inject_Z_plus. ring.
Qed.
Lemma fake_quantize_sizes_correct s : s <> [] -> dec_fake_quantize_sizes s = Some s.
Proof. intros H. unfold dec_fake_quantize_sizes. rewrite broadcast_one by exact H. apply broadcast_one. exact H. Qed.
