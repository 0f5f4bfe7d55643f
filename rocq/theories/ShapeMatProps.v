(** Property C33: shapes of matrix products. *)
From Coq Require Import ZArith Bool Lia List.
From Verif Require Import Prelude ShapeCoreModel ShapeCoreSpec ShapeCoreProofs ShapeBroadcastProps.
Import ListNotations.
Open Scope Z_scope.

Lemma zlen_1 : forall s : list Z, zlen s = 1 -> exists x, s = [x].
Proof.
  intros [|x [|y s]] H; [discriminate|eauto|]. rewrite !zlen_cons in H. pose proof (zlen_nonneg _ s). lia.
Qed.
Lemma zlen_2 : forall s : list Z, zlen s = 2 -> exists x y, s = [x; y].
Proof.
  intros [|x s] H; rewrite ?zlen_cons, ?zlen_nil in H; [lia|].
  destruct (zlen_1 s ltac:(lia)) as [y ->]. eauto.
Qed.
Lemma zlen_3 : forall s : list Z, zlen s = 3 -> exists x y z, s = [x; y; z].
Proof.
  intros [|x s] H; rewrite ?zlen_cons, ?zlen_nil in H; [lia|].
  destruct (zlen_2 s ltac:(lia)) as (y & z & ->). eauto.
Qed.
Ltac pys := repeat match goal with
  | |- context [@pyidx ?T ?l ?i] =>
      let v := eval vm_compute in (@pyidx T l i) in change (@pyidx T l i) with v; cbn [obind]
  | |- context [@zlen Z ?l] => let v := eval vm_compute in (@zlen Z l) in change (@zlen Z l) with v; cbn [Z.eqb Pos.eqb negb andb]
  end.
Theorem C33_mm_spec : forall a b c, mm a b = Some c <-> exists r k m, a = [r; k] /\ b = [k; m] /\ c = [r; m].
Proof.
  intros a b c. unfold mm. split.
  - destruct (Z.eqb_spec (zlen a) 2) as [A|]; [|discriminate]. destruct (Z.eqb_spec (zlen b) 2) as [B|]; [|discriminate].
    destruct (zlen_2 a A) as (r & k & ->), (zlen_2 b B) as (k' & m & ->). pys.
    destruct (Z.eqb_spec k k') as [->|]; cbn [negb]; [|discriminate]. intros [= <-]. eauto 10.
  - intros (r & k & m & -> & -> & ->). pys. rewrite ?Z.eqb_refl; reflexivity.
Qed.
Theorem C33_dot_spec : forall a b c, dot_shape a b = Some c <-> exists k, a = [k] /\ b = [k] /\ c = [].
Proof.
  intros a b c. unfold dot_shape. split.
  - destruct (Z.eqb_spec (zlen a) 1) as [A|]; [|discriminate]. destruct (Z.eqb_spec (zlen b) 1) as [B|]; [|discriminate].
    destruct (zlen_1 a A) as (k & ->), (zlen_1 b B) as (k' & ->). pys.
    destruct (Z.eqb_spec k k') as [->|]; cbn [negb]; [|discriminate]. intros [= <-]. eauto.
  - intros (k & -> & -> & ->). pys. rewrite ?Z.eqb_refl; reflexivity.
Qed.
Theorem C33_mv_spec : forall a b c, mv a b = Some c <-> exists r k, a = [r; k] /\ b = [k] /\ c = [r].
Proof.
  intros a b c. unfold mv. split.
  - destruct (Z.eqb_spec (zlen a) 2) as [A|]; [|discriminate]. destruct (Z.eqb_spec (zlen b) 1) as [B|]; [|discriminate].
    destruct (zlen_2 a A) as (r & k & ->), (zlen_1 b B) as (k' & ->). pys.
    destruct (Z.eqb_spec k k') as [->|]; cbn [negb]; [|discriminate]. intros [= <-]. eauto.
  - intros (r & k & -> & -> & ->). pys. rewrite ?Z.eqb_refl; reflexivity.
Qed.
Theorem C33_bmm_spec : forall a b c, bmm a b = Some c <->
  exists n r k m, a = [n; r; k] /\ b = [n; k; m] /\ c = [n; r; m].
Proof.
  intros a b c. unfold bmm. split.
  - destruct (Z.eqb_spec (zlen a) 3) as [A|]; [|discriminate]. destruct (Z.eqb_spec (zlen b) 3) as [B|]; [|discriminate].
    destruct (zlen_3 a A) as (n & r & k & ->), (zlen_3 b B) as (n' & k' & m & ->). pys.
    destruct (Z.eqb_spec n n') as [->|]; cbn [negb]; [|discriminate]. pys.
    destruct (Z.eqb_spec k k') as [->|]; cbn [negb]; [|discriminate]. intros [= <-]. eauto 10.
  - intros (n & r & k & m & -> & -> & ->). pys. rewrite ?Z.eqb_refl. cbn [negb]. pys. rewrite ?Z.eqb_refl; reflexivity.
Qed.
Theorem C33_t_spec : forall s, t_shape s = if (length s <=? 2)%nat then Some (rev s) else None.
Proof.
  intros [|x [|y [|z s]]]; try reflexivity. unfold t_shape. rewrite !zlen_cons. pose proof (zlen_nonneg _ s).
  destruct (Z.ltb_spec 2 (1 + (1 + (1 + zlen s)))); [reflexivity|lia].
Qed.

(** Last two entries. *)
Lemma last2 : forall (s : list Z), (2 <= length s)%nat -> exists batch r c, s = batch ++ [r; c].
Proof.
  intros s H. destruct s as [|y s]; [simpl in H; lia|].
  destruct (exists_last (l := y :: s) ltac:(discriminate)) as (s1 & c & E). rewrite E in *.
  rewrite app_length in H. simpl in H. destruct s1 as [|x s1]; [simpl in H; lia|].
  destruct (exists_last (l := x :: s1) ltac:(discriminate)) as (s2 & r & E2). exists s2, r, c.
  rewrite E2, <- app_assoc. reflexivity.
Qed.
Lemma pyidx_last2 : forall (batch : list Z) r c, pyidx (batch ++ [r; c]) (-2) = Some r.
Proof.
  intros. rewrite pyidx_neg, zlen_app by lia. change (zlen [r; c]) with 2. pose proof (zlen_nonneg _ batch).
  destruct (Z.ltb_spec (-2 + (zlen batch + 2)) 0); [lia|]. unfold zlen.
  replace (Z.to_nat (-2 + (Z.of_nat (length batch) + 2))) with (length batch) by lia.
  rewrite nth_error_app2, Nat.sub_diag by lia. reflexivity.
Qed.
Lemma pyidx_last : forall (batch : list Z) c, pyidx (batch ++ [c]) (-1) = Some c.
Proof.
  intros. rewrite pyidx_neg, zlen_app by lia. change (zlen [c]) with 1. pose proof (zlen_nonneg _ batch).
  destruct (Z.ltb_spec (-1 + (zlen batch + 1)) 0); [lia|]. unfold zlen.
  replace (Z.to_nat (-1 + (Z.of_nat (length batch) + 1))) with (length batch) by lia.
  rewrite nth_error_app2, Nat.sub_diag by lia. reflexivity.
Qed.
Lemma pyidx_lastc : forall (batch : list Z) r c, pyidx (batch ++ [r; c]) (-1) = Some c.
Proof.
  intros. replace (batch ++ [r; c]) with ((batch ++ [r]) ++ [c]) by (now rewrite <- app_assoc).
  apply pyidx_last.
Qed.
Lemma batch_slice : forall (batch : list Z) r c,
  mapM (pyidx (batch ++ [r; c])) (zrange 0 (zlen (batch ++ [r; c]) - 2)) = Some batch.
Proof.
  intros. pose proof (zlen_nonneg _ batch). rewrite mapM_slice by (rewrite zlen_app; change (zlen [r; c]) with 2; lia).
  rewrite zlen_app. change (zlen [r; c]) with 2. unfold zlen. f_equal.
  replace (Z.to_nat (Z.of_nat (length batch) + 2 - 2 - 0)) with (length batch) by lia. simpl.
  rewrite firstn_app, Nat.sub_diag, firstn_all, app_nil_r. reflexivity.
Qed.
Lemma broadcast_nil_l : forall b c, broadcast [] b = Some c <-> c = b.
Proof.
  intros b c. rewrite broadcast_nth. simpl length. rewrite Nat.max_0_l. split.
  - intros [L H]. apply list_rdim_ext; auto. intros k Hk. specialize (H k Hk). apply bc1_spec in H.
    unfold rdim in H at 1. destruct k; simpl in H; unfold bcast1 in H; lia.
  - intros ->. split; auto. intros k Hk. apply bc1_spec. unfold rdim at 1. destruct k; simpl; unfold bcast1; lia.
Qed.
Lemma broadcast_nil_r : forall b c, broadcast b [] = Some c <-> c = b.
Proof.
  intros b c. rewrite broadcast_nth. simpl length. rewrite Nat.max_0_r. split.
  - intros [L H]. apply list_rdim_ext; auto. intros k Hk. specialize (H k Hk). apply bc1_spec in H.
    unfold rdim in H at 2. destruct k; simpl in H; unfold bcast1 in H; lia.
  - intros ->. split; auto. intros k Hk. apply bc1_spec. unfold rdim at 2. destruct k; simpl; unfold bcast1; lia.
Qed.
Lemma zlen_batch : forall (b : list Z) r c, zlen (b ++ [r; c]) = zlen b + 2.
Proof. intros. now rewrite zlen_app. Qed.
Ltac eqbs := repeat match goal with
  | |- context [?a =? ?b] => destruct (Z.eqb_spec a b); try lia
  | |- context [?a <? ?b] => destruct (Z.ltb_spec a b); try lia
  | |- context [?a <=? ?b] => destruct (Z.leb_spec a b); try lia end.
Ltac enil e := match type of e with zlen ?b + _ = _ =>
  assert (b = []) by (destruct b; auto; rewrite zlen_cons in e; pose proof (zlen_nonneg _ b); lia); subst b end.
(** The general branch, on matrices with batch dims. *)
Lemma matmul_batched : forall ba bb r k k' m c, ba ++ bb <> [] ->
  (matmul (ba ++ [r; k]) (bb ++ [k'; m]) = Some c <-> exists bc, broadcasts ba bb bc /\ c = bc ++ [r; m]).
Proof.
  intros ba bb r k k' m c Hne. unfold matmul. rewrite !batch_slice, pyidx_last2.
  rewrite pyidx_lastc, !zlen_batch. pose proof (zlen_nonneg _ ba). pose proof (zlen_nonneg _ bb).
  assert (N : zlen ba + 2 = 2 -> zlen bb + 2 = 2 -> False).
  { intros e1 e2. enil e1. enil e2. now apply Hne. }
  eqbs; try (exfalso; lia); cbn [andb obind]; try (exfalso; now apply N).
  all: split;
    [ intros H'; destruct (broadcast ba bb) as [bc|] eqn:E; [|discriminate]; cbn [obind] in H'; injection H' as <-;
      exists bc; split; auto; now apply C28_broadcast_is_common_shape
    | intros (bc & E & ->); apply C28_broadcast_is_common_shape in E; now rewrite E ].
Qed.
Lemma matmul_vm : forall n bb k' m c, bb <> [] -> (matmul [n] (bb ++ [k'; m]) = Some c <-> c = bb ++ [m]).
Proof.
  intros n bb k' m c Hne. unfold matmul. rewrite !batch_slice.
  rewrite pyidx_lastc, !zlen_batch. pose proof (zlen_nonneg _ bb). change (zlen [n]) with 1.
  assert (N : zlen bb + 2 = 2 -> False) by (intros e; enil e; congruence).
  eqbs; cbn [andb obind]; try (exfalso; now apply N). all: try (exfalso; lia).
  all: change (mapM (pyidx [n]) (zrange 0 (1 - 2))) with (Some (@nil Z)); cbn [obind].
  all: rewrite (proj2 (broadcast_nil_l bb bb) eq_refl); cbn [obind app].
  all: split; [intros [= <-]; auto|intros ->; auto].
Qed.
Lemma matmul_mv : forall n ba r k c, ba <> [] -> (matmul (ba ++ [r; k]) [n] = Some c <-> c = ba ++ [r]).
Proof.
  intros n ba r k c Hne. unfold matmul. rewrite !batch_slice, pyidx_last2.
  rewrite !zlen_batch. pose proof (zlen_nonneg _ ba). change (zlen [n]) with 1.
  assert (N : zlen ba + 2 = 2 -> False) by (intros e; enil e; congruence).
  eqbs; cbn [andb obind]; try (exfalso; now apply N). all: try (exfalso; lia).
  all: change (mapM (pyidx [n]) (zrange 0 (1 - 2))) with (Some (@nil Z)).
  all: change (pyidx [n] (-1)) with (Some n); cbn [obind].
  all: rewrite (proj2 (broadcast_nil_r ba ba) eq_refl); cbn [obind app].
  all: split; [intros [= <-]; auto|intros ->; auto].
Qed.
Lemma nil_dec : forall l : list Z, l = [] \/ l <> [].
Proof. intros [|]; [now left|right; discriminate]. Qed.
Lemma matmul_12 : forall n k m c, matmul [n] [k; m] = Some c <-> n = k /\ c = [m].
Proof.
  intros n k m c. unfold matmul. change (unsqueeze [n] 0) with (Some [1; n]). cbn [obind].
  change (zlen [n]) with 1. change (zlen [k; m]) with 2. cbn [Z.eqb Pos.eqb andb].
  destruct (mm [1; n] [k; m]) as [o|] eqn:E; cbn [obind].
  - apply C33_mm_spec in E. destruct E as (r & x & y & [= <- <-] & [= <- <-] & ->).
    change (squeeze [1; m] 0) with (Some [m]). split; [intros [= <-]; auto|intros [_ ->]; auto].
  - split; [discriminate|]. intros [<- ->].
    rewrite (proj2 (C33_mm_spec [1; n] [n; m] [1; m])) in E; [discriminate|]. eauto 10.
Qed.
Lemma matmul_22 : forall r k k' m c, matmul [r; k] [k'; m] = Some c <-> k = k' /\ c = [r; m].
Proof.
  intros. change (matmul [r; k] [k'; m]) with (mm [r; k] [k'; m]). rewrite C33_mm_spec. split.
  - intros (x & y & z & [= -> ->] & [= -> ->] & ->). auto.
  - intros [-> ->]. eauto 10.
Qed.
Lemma matmul_21 : forall r k k' c, matmul [r; k] [k'] = Some c <-> k = k' /\ c = [r].
Proof.
  intros. change (matmul [r; k] [k']) with (mv [r; k] [k']). rewrite C33_mv_spec. split.
  - intros (x & y & [= -> ->] & [= ->] & ->). auto.
  - intros [-> ->]. eauto 10.
Qed.
Theorem C33_matmul_shape : forall a b c, matmul_shape a b c -> matmul a b = Some c.
Proof.
  intros a b c H. destruct H as [n|n batch c b H|n batch r a H|ba bb bc r n c a b Ha Hb Hc].
  - change (matmul [n] [n]) with (dot_shape [n] [n]). apply C33_dot_spec. eauto.
  - inversion H; subst. destruct (nil_dec batch) as [->|N].
    + now apply matmul_12.
    + now apply matmul_vm.
  - inversion H; subst. destruct (nil_dec batch) as [->|N].
    + now apply matmul_21.
    + now apply matmul_mv.
  - inversion Ha; inversion Hb; subst. destruct (nil_dec (ba ++ bb)) as [E|N].
    + apply app_eq_nil in E. destruct E as [-> ->]. cbn [app]. apply matmul_22. split; auto.
      apply C28_broadcast_is_common_shape in Hc. apply broadcast_nil_l in Hc. now subst.
    + apply matmul_batched; eauto.
Qed.
(** With at most two dims each, matmul succeeds exactly on matching operands. *)
Theorem C33_small_ranks_checked : forall a b c, (length a <= 2)%nat -> (length b <= 2)%nat ->
  (matmul a b = Some c <-> matmul_shape a b c).
Proof.
  intros a b c La Lb. split; [|apply C33_matmul_shape].
  destruct a as [|x [|y [|z a]]], b as [|x' [|y' [|z' b]]]; cbn [length] in *; try lia; try discriminate.
  - change (matmul [x] [x']) with (dot_shape [x] [x']). rewrite C33_dot_spec. intros (k & [= ->] & [= ->] & ->). constructor.
  - rewrite matmul_12. intros [-> ->]. apply (mms_vm x' [] y'). apply (ms_matrix []).
  - rewrite matmul_21. intros [-> ->]. apply (mms_mv x' [] x). apply (ms_matrix []).
  - rewrite matmul_22. intros [-> ->]. apply (mms_mm [] [] [] x x' y'); [apply (ms_matrix [])|apply (ms_matrix [])|].
    split; [reflexivity|simpl; lia].
Qed.
(** With more dims, the contraction sizes are not compared: matmul succeeds exactly when
    some contraction size of the left operand would match. *)
Theorem C33_batched_partial : forall a b c, (3 <= length a \/ 3 <= length b)%nat ->
  (matmul a b = Some c <-> a <> [] /\ exists n, matmul_shape (removelast a ++ [n]) b c).
Proof.
  intros a b c HL.
  assert (R : forall (l : list Z) x y z, removelast (l ++ [x; y]) ++ [z] = l ++ [x; z]).
  { intros. replace (l ++ [x; y]) with ((l ++ [x]) ++ [y]) by (now rewrite <- app_assoc).
    rewrite removelast_last, <- app_assoc. reflexivity. }
  assert (D : forall s : list Z, s = [] \/ (exists n, s = [n]) \/ exists batch r k, s = batch ++ [r; k]).
  { intros [|x [|y s]]; auto; [right; left; eauto|]. right. right. apply last2. simpl; lia. }
  assert (SZ : forall (l : list Z) x y, (3 <= length (l ++ [x; y]))%nat -> l <> []).
  { intros l x y H E. subst l. simpl in H. lia. }
  destruct (D a) as [->|[[n ->]|(ba & r & k & ->)]].
  - split; [|intros [H _]; congruence]. unfold matmul. change (zlen (@nil Z)) with 0. simpl. discriminate.
  - destruct (D b) as [->|[[n' ->]|(bb & k' & m & ->)]]; [simpl in HL; lia|simpl in HL; lia|].
    assert (N : bb <> []) by (destruct HL as [HL|HL]; [simpl in HL; lia|eauto]).
    rewrite matmul_vm by auto. cbn [removelast app]. split.
    + intros ->. split; [discriminate|]. exists k'. apply mms_vm with (1 := ms_matrix _ _ _).
    + intros [_ [x H]]. apply C33_matmul_shape in H. apply matmul_vm in H; auto.
  - assert (ba ++ [r; k] <> []) by (destruct ba; discriminate).
    destruct (D b) as [->|[[n' ->]|(bb & k' & m & ->)]].
    + split.
      * unfold matmul. change (zlen (@nil Z)) with 0. destruct (zlen (ba ++ [r; k]) =? 1), (zlen (ba ++ [r; k]) =? 2), (1 <=? zlen (ba ++ [r; k])); simpl; discriminate.
      * intros [_ [x H']]. apply C33_matmul_shape in H'. rewrite R in H'. revert H'.
        unfold matmul. change (zlen (@nil Z)) with 0. destruct (zlen (ba ++ [r; x]) =? 1), (zlen (ba ++ [r; x]) =? 2), (1 <=? zlen (ba ++ [r; x])); simpl; discriminate.
    + assert (N : ba <> []) by (destruct HL as [HL|HL]; [eauto|simpl in HL; lia]).
      rewrite matmul_mv by auto. split.
      * intros ->. split; auto. exists n'. rewrite R. apply mms_mv with (1 := ms_matrix _ _ _).
      * intros [_ [x H']]. apply C33_matmul_shape in H'. rewrite R in H'. apply matmul_mv in H'; auto.
    + assert (N : ba ++ bb <> []) by (intros E; apply app_eq_nil in E; destruct E as [-> ->]; simpl in HL; lia).
      rewrite matmul_batched by auto. split.
      * intros (bc & Hb & ->). split; auto. exists k'. rewrite R.
        apply mms_mm with (1 := ms_matrix _ _ _) (2 := ms_matrix _ _ _); auto.
      * intros [_ [x H']]. apply C33_matmul_shape in H'. rewrite R in H'. apply matmul_batched in H'; auto.
Qed.
Theorem C33_batched_mismatch_accepted_refuted : forall ba bb bc r k k' m,
  ba ++ bb <> [] -> broadcasts ba bb bc -> k <> k' ->
  matmul (ba ++ [r; k]) (bb ++ [k'; m]) = Some (bc ++ [r; m]) /\
  forall c, ~ matmul_shape (ba ++ [r; k]) (bb ++ [k'; m]) c.
Proof.
  intros ba bb bc r k k' m Hne Hb Hk. split; [apply matmul_batched; eauto|].
  assert (SP : forall (l l' : list Z) x y x' y', l ++ [x; y] = l' ++ [x'; y'] -> l = l' /\ x = x' /\ y = y').
  { intros l l' x y x' y' H. replace (l ++ [x; y]) with ((l ++ [x]) ++ [y]) in H by (now rewrite <- app_assoc).
    replace (l' ++ [x'; y']) with ((l' ++ [x']) ++ [y']) in H by (now rewrite <- app_assoc).
    apply app_inj_tail in H. destruct H as [H ->]. apply app_inj_tail in H. tauto. }
  intros c H. remember (ba ++ [r; k]) as A eqn:EA. remember (bb ++ [k'; m]) as B eqn:EB.
  destruct H as [n|n batch c B H|n batch r' A H|ba' bb' bc' r' n c A B Ha Hb' Hc].
  - destruct ba as [|? [|]]; discriminate.
  - destruct ba as [|? [|]]; discriminate.
  - destruct bb as [|? [|]]; discriminate.
  - destruct Ha, Hb'. apply SP in EA, EB. destruct EA as (_ & _ & ->), EB as (_ & E & _). congruence.
Qed.
Theorem C33_unbroadcastable_batches_rejected : forall ba bb r k k' m,
  (forall bc, ~ broadcasts ba bb bc) -> matmul (ba ++ [r; k]) (bb ++ [k'; m]) = None.
Proof.
  intros ba bb r k k' m H. destruct (nil_dec (ba ++ bb)) as [E|N].
  - apply app_eq_nil in E. destruct E as [-> ->]. exfalso. apply (H []). split; [reflexivity|simpl; lia].
  - destruct (matmul _ _) as [c|] eqn:E; auto. apply matmul_batched in E; auto. destruct E as (bc & Hb & _). destruct (H _ Hb).
Qed.
Theorem C33_rank_zero_rejected : forall a, matmul [] a = None /\ matmul a [] = None.
Proof.
  intros a. unfold matmul. change (zlen (@nil Z)) with 0.
  split; destruct (zlen a =? 1), (zlen a =? 2), (1 <=? zlen a); reflexivity.
Qed.
Example C33_nonvacuous : matmul [5; 2; 3] [3; 4] = Some [5; 2; 4] /\ matmul_shape [5; 2; 3] [3; 4] [5; 2; 4] /\
  matmul [5; 2; 3] [7; 4] = Some [5; 2; 4] /\ matmul [2; 3] [7; 4] = None.
Proof.
  split; [reflexivity|split; [|split; reflexivity]].
  apply (mms_mm [5] [] [5] 2 3 4); [apply (ms_matrix [5])|apply (ms_matrix [])|].
  apply C28_broadcast_is_common_shape. reflexivity.
Qed.

Print Assumptions C33_matmul_shape.
Print Assumptions C33_small_ranks_checked.
Print Assumptions C33_batched_partial.
Print Assumptions C33_batched_mismatch_accepted_refuted.
Print Assumptions C33_unbroadcastable_batches_rejected.
Print Assumptions C33_rank_zero_rejected.
