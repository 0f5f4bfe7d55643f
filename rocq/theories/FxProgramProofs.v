(** Proofs about import_program: dictionaries, signature tables, the prologue, the body. *)
From Coq Require Import String ZArith Bool Lia List.
From Verif Require Import Prelude FxGraphModel FxGraphSpec FxGraphSsa FxGraphProofs
  FxProgramModel FxProgramSpec.
Import ListNotations.
Open Scope nat_scope.

(** ** Dictionaries *)
Lemma sget_dset : forall A (l : list (string * A)) k v k',
  sget (dset l k v) k' = if String.eqb k k' then Some v else sget l k'.
Proof.
  induction l as [|[k0 x] r IH]; intros k v k'; cbn [dset sget]; [reflexivity|].
  destruct (String.eqb_spec k0 k).
  - subst. cbn [sget]. destruct (String.eqb_spec k k'); reflexivity.
  - cbn [sget]. destruct (String.eqb_spec k0 k').
    + destruct (String.eqb_spec k k'); [congruence|reflexivity].
    + apply IH.
Qed.
Lemma dset_In : forall A (l : list (string * A)) k v k' v',
  In (k', v') (dset l k v) -> (k', v') = (k, v) \/ In (k', v') l.
Proof.
  induction l as [|[k0 x] r IH]; intros k v k' v'; cbn [dset].
  - intros [H|[]]; auto.
  - destruct (String.eqb_spec k0 k); intros [H|H]; simpl; auto.
    + left. congruence.
    + apply IH in H. tauto.
Qed.
Lemma dset_keys : forall A (l : list (string * A)) k v,
  NoDup (map fst l) -> NoDup (map fst (dset l k v)).
Proof.
  induction l as [|[k0 x] r IH]; intros k v H; cbn [dset].
  - constructor; [intros []|constructor].
  - inversion H; subst. destruct (String.eqb_spec k0 k); [exact H|].
    cbn [map fst]. constructor; auto. intros Hc. apply in_map_iff in Hc.
    destruct Hc as [[k1 v1] [E Hc]]. simpl in E. subst k1. apply dset_In in Hc.
    destruct Hc as [Hc|Hc]; [congruence|]. apply H2. apply in_map_iff. now exists (k0, v1).
Qed.
Lemma sget_In : forall A (l : list (string * A)) k v, sget l k = Some v -> In (k, v) l.
Proof.
  induction l as [|[k0 x] r IH]; simpl; intros k v H; [discriminate|].
  destruct (String.eqb_spec k0 k); [left; congruence|auto].
Qed.
Lemma In_sget : forall A (l : list (string * A)) k v,
  NoDup (map fst l) -> In (k, v) l -> sget l k = Some v.
Proof.
  induction l as [|[k0 x] r IH]; simpl; intros k v H Hi; [contradiction|].
  inversion H; subst. destruct Hi as [Hi|Hi].
  - injection Hi as -> ->. now rewrite String.eqb_refl.
  - destruct (String.eqb_spec k0 k); auto. subst. exfalso. apply H2.
    apply in_map_iff. now exists (k, v).
Qed.
Definition dsets {A} (evs : list (string * A)) (d : list (string * A)) :=
  fold_left (fun d kv => dset d (fst kv) (snd kv)) evs d.
Lemma dsets_In : forall A (evs d : list (string * A)) k v,
  sget (dsets evs d) k = Some v -> In (k, v) evs \/ sget d k = Some v.
Proof.
  induction evs as [|[k0 x] r IH]; simpl; intros d k v H; auto.
  apply IH in H. destruct H as [H|H]; auto. rewrite sget_dset in H. simpl in H.
  destruct (String.eqb_spec k0 k); auto. left. left. congruence.
Qed.
Lemma dsets_unique : forall A (evs d : list (string * A)) k v,
  In (k, v) evs -> (forall v', In (k, v') evs -> v' = v) -> sget (dsets evs d) k = Some v.
Proof.
  induction evs as [|[k0 x] r IH]; simpl; intros d k v Hi Hu; [contradiction|].
  destruct (in_dec string_dec k (map fst r)) as [Hr|Hr].
  - apply in_map_iff in Hr. destruct Hr as [[k1 v1] [E Hr]]. simpl in E. subst k1.
    assert (v1 = v) by auto. subst v1. apply IH; auto.
  - assert (Hn : forall v', ~ In (k, v') r).
    { intros v' Hc. apply Hr. apply in_map_iff. now exists (k, v'). }
    destruct Hi as [Hi|Hi]; [|exfalso; eapply Hn; eauto]. injection Hi as -> ->.
    assert (G : forall d', sget d' k = Some v -> sget (dsets r d') k = Some v).
    { clear - Hn. induction r as [|[k2 v2] r IH]; simpl; intros d' H; auto.
      apply IH; [intros v' Hc; eapply Hn; right; eauto|].
      rewrite sget_dset. simpl. destruct (String.eqb_spec k2 k); auto.
      subst. exfalso. eapply Hn. left. eauto. }
    apply G. rewrite sget_dset. simpl. now rewrite String.eqb_refl.
Qed.
Lemma dsets_none : forall A (evs d : list (string * A)) k,
  (forall v, ~ In (k, v) evs) -> sget (dsets evs d) k = sget d k.
Proof.
  induction evs as [|[k0 x] r IH]; simpl; intros d k H; auto.
  rewrite IH; [|intros v Hc; eapply H; right; eauto]. rewrite sget_dset. simpl.
  destruct (String.eqb_spec k0 k); auto. subst. exfalso. eapply H. left. eauto.
Qed.
Lemma dsets_keys : forall A (evs d : list (string * A)),
  NoDup (map fst d) -> NoDup (map fst (dsets evs d)).
Proof. induction evs; simpl; intros; auto. apply IHevs. now apply dset_keys. Qed.

(** ** The signature's mutation tables *)
Definition inmut (o : ospec) : list (string * string) :=
  match os_kind o, os_arg o with OInputMutation, OTensor q => [(q, os_target o)] | _, _ => [] end.
Definition bufmut (o : ospec) : list (string * string) :=
  match os_kind o, os_arg o with OBufferMutation, OTensor q => [(os_target o, q)] | _, _ => [] end.
Lemma fold_dsets : forall A (f : A -> list (string * string)) (h : list (string * string) -> A -> list (string * string)) l d,
  (forall d a, h d a = dsets (f a) d) -> fold_left h l d = dsets (flat_map f l) d.
Proof.
  intros A f h. induction l as [|a r IH]; simpl; intros d H; auto.
  rewrite IH, H by auto. unfold dsets. now rewrite fold_left_app.
Qed.
Lemma to_mutate_eq : forall outs, user_inputs_to_mutate outs = dsets (flat_map inmut outs) [].
Proof.
  intros outs. unfold user_inputs_to_mutate. apply fold_dsets. intros d o.
  unfold inmut. destruct (os_kind o); auto. destruct (os_arg o); auto.
Qed.
Lemma buffer_producers_eq : forall outs, buffer_producers outs = dsets (flat_map bufmut outs) [].
Proof.
  intros outs. unfold buffer_producers. apply fold_dsets. intros d o.
  unfold bufmut. destruct (os_kind o); auto. destruct (os_arg o); auto.
Qed.
Lemma inmut_In : forall outs q x, In (q, x) (flat_map inmut outs) <->
  exists o, In o outs /\ os_kind o = OInputMutation /\ os_arg o = OTensor q /\ os_target o = x.
Proof.
  intros outs q x. rewrite in_flat_map. split; intros [o [H1 H2]]; exists o.
  - unfold inmut in H2. destruct (os_kind o); try contradiction.
    destruct (os_arg o); try contradiction. destruct H2 as [[= <- <-]|[]]. auto.
  - destruct H2 as (H2 & H3 & <-). split; auto. unfold inmut. rewrite H2, H3. now left.
Qed.
Lemma bufmut_In : forall outs q x, In (x, q) (flat_map bufmut outs) <->
  exists o, In o outs /\ os_kind o = OBufferMutation /\ os_arg o = OTensor q /\ os_target o = x.
Proof.
  intros outs q x. rewrite in_flat_map. split; intros [o [H1 H2]]; exists o.
  - unfold bufmut in H2. destruct (os_kind o); try contradiction.
    destruct (os_arg o); try contradiction. destruct H2 as [[= <- <-]|[]]. auto.
  - destruct H2 as (H2 & H3 & <-). split; auto. unfold bufmut. rewrite H2, H3. now left.
Qed.
Definition swap {A B} (x : A * B) := (snd x, fst x).
Lemma mutated_eq : forall outs,
  mutated_user_inputs outs = dsets (map swap (user_inputs_to_mutate outs)) [].
Proof.
  intros outs. unfold mutated_user_inputs. generalize (user_inputs_to_mutate outs) as l.
  generalize (@nil (string * string)) as d. intros d l. revert d.
  induction l; simpl; intros d; auto.
Qed.
Lemma mutated_spec : forall outs x q, sget (mutated_user_inputs outs) x = Some q ->
  exists o, In o outs /\ os_kind o = OInputMutation /\ os_arg o = OTensor q /\ os_target o = x.
Proof.
  intros outs x q H. rewrite mutated_eq in H. apply dsets_In in H.
  destruct H as [H|H]; [|discriminate]. apply in_map_iff in H. destruct H as [[a b] [E H]].
  unfold swap in E. simpl in E. injection E as -> ->. apply inmut_In.
  apply In_sget in H; [|rewrite to_mutate_eq; apply dsets_keys; constructor].
  rewrite to_mutate_eq in H. apply dsets_In in H. destruct H as [H|H]; [auto|discriminate].
Qed.
Lemma mutated_unique : forall outs o q, In o outs -> os_kind o = OInputMutation ->
  os_arg o = OTensor q ->
  (forall o', In o' outs -> os_kind o' = OInputMutation -> os_arg o' = OTensor q ->
     os_target o' = os_target o) ->
  (forall o' q', In o' outs -> os_kind o' = OInputMutation -> os_arg o' = OTensor q' ->
     os_target o' = os_target o -> q' = q) ->
  sget (mutated_user_inputs outs) (os_target o) = Some q.
Proof.
  intros outs o q H1 H2 H3 Hq Ht.
  assert (Hu : sget (user_inputs_to_mutate outs) q = Some (os_target o)).
  { rewrite to_mutate_eq. apply dsets_unique.
    - apply inmut_In. eauto.
    - intros x Hx. apply inmut_In in Hx. destruct Hx as (o' & A & B & C & <-). eauto. }
  rewrite mutated_eq. apply dsets_unique.
  - apply sget_In in Hu. apply in_map_iff. exists (q, os_target o). auto.
  - intros q' Hq'. apply in_map_iff in Hq'. destruct Hq' as [[a b] [E Hi]].
    unfold swap in E. simpl in E. injection E as -> ->.
    apply In_sget in Hi; [|rewrite to_mutate_eq; apply dsets_keys; constructor].
    rewrite to_mutate_eq in Hi. apply dsets_In in Hi. destruct Hi as [Hi|Hi]; [|discriminate].
    apply inmut_In in Hi. destruct Hi as (o' & A & B & C & D). eauto.
Qed.
Lemma mutated_none : forall outs x,
  (forall o q, In o outs -> os_kind o = OInputMutation -> os_arg o = OTensor q -> os_target o <> x) ->
  sget (mutated_user_inputs outs) x = None.
Proof.
  intros outs x H. destruct (sget (mutated_user_inputs outs) x) eqn:E; auto.
  apply mutated_spec in E. destruct E as (o & A & B & C & D). exfalso. eapply H; eauto.
Qed.
Lemma producers_spec : forall outs x q, sget (buffer_producers outs) x = Some q ->
  exists o, In o outs /\ os_kind o = OBufferMutation /\ os_arg o = OTensor q /\ os_target o = x.
Proof.
  intros outs x q H. rewrite buffer_producers_eq in H. apply dsets_In in H.
  destruct H as [H|H]; [|discriminate]. now apply bufmut_In.
Qed.
Lemma producers_unique : forall outs o q, In o outs -> os_kind o = OBufferMutation ->
  os_arg o = OTensor q ->
  (forall o' q', In o' outs -> os_kind o' = OBufferMutation -> os_arg o' = OTensor q' ->
     os_target o' = os_target o -> q' = q) ->
  sget (buffer_producers outs) (os_target o) = Some q.
Proof.
  intros outs o q H1 H2 H3 Ht. rewrite buffer_producers_eq. apply dsets_unique.
  - apply bufmut_In. eauto.
  - intros q' Hq. apply bufmut_In in Hq. destruct Hq as (o' & A & B & C & D). eauto.
Qed.

(** ** The input tables *)
Lemma find_ph_In : forall g n nd, find_ph g n = Some nd ->
  In nd g /\ n_name nd = n /\ n_op nd = Placeholder.
Proof.
  intros g n nd H. apply find_some in H. destruct H as [H1 H2].
  apply andb_true_iff in H2. destruct H2 as [H2 H3]. apply String.eqb_eq in H3.
  unfold is_placeholder in H2. destruct (n_op nd); try discriminate. auto.
Qed.

Section Tables.
Variable T : Type.
Variable W : world T.
Variable p : program.
Notation g := (pg_graph p).

Definition user_ok (nt : string * ty) : Prop := exists nd t, find_ph g (fst nt) = Some nd /\
  n_ty nd = Some t /\
  snd nt = match sget (mutated_user_inputs (pg_outs p)) (fst nt) with
           | Some _ => mut_ty t | None => t end.
Definition good (binds : list (string * rv T)) (n : string) (l : lit) : Prop :=
  find_ph g n <> None /\ exists x, In (n, x) binds /\ lit_val T W l = Some x.
Definition buf_ok (ins : list ispec) (binds : list (string * rv T))
    (x : string * (lit * (string * option string))) : Prop :=
  good binds (fst x) (fst (snd x)) /\
  snd (snd (snd x)) = sget (buffer_producers (pg_outs p)) (fst (snd (snd x))) /\
  exists s, In s ins /\ i_kind s = IBuffer /\ i_arg s = ITensor (fst x) /\
    i_target s = fst (snd (snd x)).

Ltac dset_cases H := apply dset_In in H; destruct H as [H|H]; [|auto];
  try (injection H as -> ->); try (injection H as -> -> -> ->).
Ltac binv H := match type of H with obind ?c _ = _ => destruct c eqn:?; [|discriminate] end;
  cbn [obind] in H.

Lemma tables_spec : forall ins t0 t inputs binds,
  foldM (add_input p) ins t0 = Some t -> bind_inputs T W p ins inputs = Some binds ->
  exists us, t_user t = t_user t0 ++ us /\ map fst us = user_names ins /\
    Forall user_ok us /\ Forall2 (fun nt v => In (fst nt, v) binds) us inputs /\
    (forall n l, In (n, l) (t_cin t) -> In (n, l) (t_cin t0) \/ good binds n l) /\
    (forall n l, In (n, l) (t_cten t) -> In (n, l) (t_cten t0) \/ good binds n l) /\
    (forall n l, In (n, l) (t_par t) -> In (n, l) (t_par t0) \/ good binds n l) /\
    (forall x, In x (t_buf t) -> In x (t_buf t0) \/ buf_ok ins binds x).
Proof.
  induction ins as [|s r IH]; intros t0 t inputs binds Hf Hb.
  - cbn [foldM] in Hf. injection Hf as <-. cbn [bind_inputs] in Hb.
    destruct inputs; [|discriminate]. injection Hb as <-.
    exists []. rewrite app_nil_r. repeat split; auto.
  - cbn [foldM] in Hf.
    destruct (add_input p t0 s) as [t1|] eqn:E1; [|discriminate]. cbn [obind] in Hf.
    assert (Hgood : forall n v l b', good b' n l -> binds = (fst v, snd v) :: b' -> good binds n l).
    { intros n v l b' (X0 & x & H1 & H2) ->. split; auto. exists x. split; auto. now right. }
    assert (G : forall inputs' b' v us1, bind_inputs T W p r inputs' = Some b' ->
      binds = v :: b' -> t_user t1 = t_user t0 ++ us1 -> Forall user_ok us1 ->
      user_names (s :: r) = map fst us1 ++ user_names r ->
      (us1 = [] /\ inputs = inputs' \/ exists nt x, us1 = [nt] /\ inputs = x :: inputs' /\ v = (fst nt, x)) ->
      (forall n l, In (n, l) (t_cin t1) -> In (n, l) (t_cin t0) \/ good binds n l) ->
      (forall n l, In (n, l) (t_cten t1) -> In (n, l) (t_cten t0) \/ good binds n l) ->
      (forall n l, In (n, l) (t_par t1) -> In (n, l) (t_par t0) \/ good binds n l) ->
      (forall x, In x (t_buf t1) -> In x (t_buf t0) \/ buf_ok (s :: r) binds x) ->
      exists us, t_user t = t_user t0 ++ us /\ map fst us = user_names (s :: r) /\
        Forall user_ok us /\ Forall2 (fun nt v => In (fst nt, v) binds) us inputs /\
        (forall n l, In (n, l) (t_cin t) -> In (n, l) (t_cin t0) \/ good binds n l) /\
        (forall n l, In (n, l) (t_cten t) -> In (n, l) (t_cten t0) \/ good binds n l) /\
        (forall n l, In (n, l) (t_par t) -> In (n, l) (t_par t0) \/ good binds n l) /\
        (forall x, In x (t_buf t) -> In x (t_buf t0) \/ buf_ok (s :: r) binds x)).
    { intros inputs' b' v us1 Hb' -> Hu1 Ho1 Hn Hi A1 A2 A3 A4.
      destruct (IH _ _ _ _ Hf Hb') as (us & B1 & B2 & B3 & B4 & B5 & B6 & B7 & B8).
      assert (Gd : forall n l, good b' n l -> good (v :: b') n l).
      { intros n l (X0 & x & X1 & X2). split; auto. exists x. split; auto. now right. }
      exists (us1 ++ us). rewrite B1, Hu1, app_assoc. split; auto.
      split; [rewrite map_app, B2, Hn; reflexivity|].
      split; [apply Forall_app; auto|]. split.
      - assert (F : Forall2 (fun nt v0 => In (fst nt, v0) (v :: b')) us inputs').
        { eapply Forall2_imp; [|exact B4]. intros; now right. }
        destruct Hi as [[-> ->]|(nt & x & -> & -> & ->)]; [exact F|].
        constructor; [now left|exact F].
      - split; [|split; [|split]].
        + intros n l H. destruct (B5 _ _ H); auto.
        + intros n l H. destruct (B6 _ _ H); auto.
        + intros n l H. destruct (B7 _ _ H); auto.
        + intros x H. destruct (B8 _ H) as [H1|(H1 & H2 & s' & H3)]; auto.
          right. split; auto. split; auto. exists s'. destruct H3. split; [now right|auto]. }
    unfold add_input in E1. cbn [bind_inputs] in Hb.
    unfold user_names in G. cbn [flat_map] in G. fold (user_names r) in G.
    unfold user_names. cbn [flat_map]. fold (user_names r).
    destruct (i_kind s) eqn:Ek; destruct (i_arg s) as [n|n|n c|] eqn:Ea; try discriminate.
    + destruct inputs as [|x rest]; [discriminate|]. binv Hb. injection Hb as <-.
      destruct (find_ph g n) as [nd|] eqn:Ef; [|discriminate]. cbn [obind] in E1.
      destruct (n_ty nd) as [tt|] eqn:Et; [|discriminate]. cbn [obind] in E1. injection E1 as <-.
      eapply G with (us1 := [(n, _)]); eauto; try (simpl; auto; fail).
      * constructor; [|constructor]. exists nd, tt. simpl. split; auto. split; auto.
        destruct (sget (mutated_user_inputs (pg_outs p)) n); auto.
      * right. eexists _, _. split; [reflexivity|]. split; reflexivity.
    + destruct inputs as [|x rest]; [discriminate|]. binv Hb. injection Hb as <-.
      destruct (find_ph g n) as [nd|] eqn:Ef; [|discriminate]. cbn [obind] in E1.
      destruct (n_ty nd) as [tt|] eqn:Et; [|discriminate]. cbn [obind] in E1. injection E1 as <-.
      eapply G with (us1 := [(n, _)]); eauto; try (simpl; auto; fail).
      * constructor; [|constructor]. exists nd, tt. simpl. split; auto. split; auto.
        destruct (sget (mutated_user_inputs (pg_outs p)) n); auto.
      * right. eexists _, _. split; [reflexivity|]. split; reflexivity.
    + cbn [obind] in Hb. destruct (lit_val T W c) as [x|] eqn:Ex; [|discriminate].
      cbn [obind] in Hb. binv Hb. injection Hb as <-.
      destruct (find_ph g n) as [nd|] eqn:Ef; [|discriminate]. cbn [obind] in E1. injection E1 as <-.
      eapply G with (us1 := []); eauto; try (simpl; auto; fail).
      * simpl. now rewrite app_nil_r.
      * simpl. intros n0 l0 H. apply dset_In in H. destruct H as [[= -> ->]|H]; auto.
        right. split; [congruence|]. exists x. split; auto. now left.
    + destruct (sget (pg_consts p) (i_target s)) as [c|] eqn:Ec; [|discriminate].
      cbn [obind] in Hb. destruct (lit_val T W c) as [x|] eqn:Ex; [|discriminate].
      cbn [obind] in Hb. binv Hb. injection Hb as <-.
      destruct (find_ph g n) as [nd|] eqn:Ef; [|discriminate]. cbn [obind] in E1. injection E1 as <-.
      eapply G with (us1 := []); eauto; try (simpl; auto; fail).
      * simpl. now rewrite app_nil_r.
      * simpl. intros n0 l0 H. apply dset_In in H. destruct H as [[= -> ->]|H]; auto.
        right. split; [congruence|]. exists x. split; auto. now left.
    + destruct (sget (pg_state p) (i_target s)) as [c|] eqn:Ec; [|discriminate].
      cbn [obind] in Hb. destruct (lit_val T W c) as [x|] eqn:Ex; [|discriminate].
      cbn [obind] in Hb, E1. binv Hb. injection Hb as <-.
      destruct (find_ph g n) as [nd|] eqn:Ef; [|discriminate]. cbn [obind] in E1.
      binv E1. injection E1 as <-.
      eapply G with (us1 := []); eauto; try (simpl; auto; fail).
      * simpl. now rewrite app_nil_r.
      * simpl. intros n0 l0 H. apply dset_In in H. destruct H as [[= -> ->]|H]; auto.
        right. split; [congruence|]. exists x. split; auto. now left.
    + destruct (sget (if i_persistent s then pg_state p else pg_consts p) (i_target s)) as [c|] eqn:Ec; [|discriminate].
      cbn [obind] in Hb. destruct (lit_val T W c) as [x|] eqn:Ex; [|discriminate].
      cbn [obind] in Hb, E1. binv Hb. injection Hb as <-.
      destruct (find_ph g n) as [nd|] eqn:Ef; [|discriminate]. cbn [obind] in E1.
      binv E1. injection E1 as <-.
      eapply G with (us1 := []); eauto; try (simpl; auto; fail).
      * simpl. now rewrite app_nil_r.
      * simpl. intros [n0 [l0 [tg0 pr0]]] H. apply dset_In in H.
        destruct H as [[= -> -> -> ->]|H]; auto.
        right. split; [split; [simpl; congruence|exists x; split; auto; now left]|]. split; auto.
        exists s. simpl. repeat split; auto.
Qed.

(** Buffers reach the table. *)
Lemma buffers_spec : forall ins t0 t, foldM (add_input p) ins t0 = Some t ->
  NoDup (map spec_name ins) ->
  (forall s n, In s ins -> i_kind s = IBuffer -> i_arg s = ITensor n ->
     exists l, sget (t_buf t) n =
       Some (l, (i_target s, sget (buffer_producers (pg_outs p)) (i_target s)))) /\
  (forall n, ~ In (Some n) (map spec_name ins) -> sget (t_buf t) n = sget (t_buf t0) n).
Proof.
  induction ins as [|s r IH]; intros t0 t Hf Hn.
  - simpl in Hf. injection Hf as <-. split; auto. intros s n [].
  - cbn [foldM] in Hf. destruct (add_input p t0 s) as [t1|] eqn:E1; [|discriminate].
    cbn [obind] in Hf. simpl in Hn. inversion Hn as [|? ? Hn1 Hn2]; subst.
    destruct (IH _ _ Hf Hn2) as [I1 I2].
    assert (F : forall n, Some n <> spec_name s -> sget (t_buf t1) n = sget (t_buf t0) n).
    { intros n Hne. unfold spec_name in Hne. unfold add_input in E1.
      destruct (i_kind s); destruct (i_arg s) as [k|k|k c|]; try discriminate;
        repeat match type of E1 with obind ?c _ = _ => destruct c; [|discriminate]; cbn [obind] in E1 end;
        injection E1 as <-; simpl; auto.
      rewrite sget_dset. destruct (String.eqb_spec k n); congruence. }
    split.
    + intros s' n [<-|Hin] Hk Ha; [|eauto].
      rewrite I2; [|unfold spec_name in Hn1; now rewrite Ha in Hn1].
      unfold add_input in E1. rewrite Hk, Ha in E1.
      repeat match type of E1 with obind ?c _ = _ => destruct c; [|discriminate]; cbn [obind] in E1 end.
      injection E1 as <-. simpl. rewrite sget_dset, String.eqb_refl. eauto.
    + intros n Hin. simpl in Hin. rewrite I2 by tauto. apply F. intros Hc. apply Hin. auto.
Qed.
End Tables.

(** ** The prologue *)
Lemma import_literal_hooks : forall l s v s' h, import_literal l s = Some (v, s') ->
  import_literal l (set_hooks h s) = Some (v, set_hooks h s').
Proof.
  intros l s v s' h H. destruct l as [| | | | |id [|]|[|]|]; simpl in H; try discriminate;
    unfold emit1, emit in H; simpl in H; injection H as <- <-; reflexivity.
Qed.
Lemma import_literal_vals : forall l s v s', import_literal l s = Some (v, s') ->
  s_vals s' = s_vals s.
Proof.
  intros l s v s' H. destruct l as [| | | | |id [|]|[|]|]; simpl in H; try discriminate;
    unfold emit1, emit in H; simpl in H; injection H as <- <-; reflexivity.
Qed.
Lemma set_hooks_same : forall s, set_hooks (s_hooks s) s = s.
Proof. now destruct s. Qed.

Section Pro.
Variable T : Type.
Variable W : world T.
Variable p : program.
Variable N : nat.
Variable inputs : list (rv T).
Variables e0 efin : fenv T.
Notation g := (pg_graph p).
Notation m0 := (start T inputs).
Hypothesis Hbool : bool_cast_ok T W.
Hypothesis Hmeta : meta_ok T g efin.
Definition untracked (q : string) (l : loc) : Prop := False.

Lemma no_hooks : forall q t, sget (@nil (string * hook)) q = Some (HOverwrite t) ->
  eget T (m_env T m0) t <> None.
Proof. discriminate. Qed.
Definition pinv (s : st) (m : mach T) : Prop :=
  sim T W g m0 [] untracked efin e0 (set_hooks [] s) m /\ wf N s /\ s_multi s = [] /\
  s_unpack s = [] /\ (forall q h, sget (s_hooks s) q = Some h -> sget e0 q = None).

Lemma pro_bind : forall s m n b s' x, pinv s m -> sget e0 n = Some (FOne x) ->
  bok T W e0 m (n, 0%nat) b -> (forall v, b = BVal v -> vok s v) ->
  bind n 0 b s = Some s' -> pinv s' m /\ s_hooks s' = s_hooks s.
Proof.
  intros s m n b s' x (S0 & Wf & Mu & Un & Hk) Hn Hb Hv E.
  unfold bind in E. destruct (vget (s_vals s) (n, 0%nat)) eqn:Ev; [discriminate|].
  cbn [s_hooks set_vals] in E. destruct (sget (s_hooks s) n) as [h|] eqn:Eh.
  { apply Hk in Eh. congruence. }
  injection E as <-. split; [|reflexivity]. split; [|split; [|split; [|split]]]; auto.
  - change (set_hooks [] (set_vals ((n, 0%nat, b) :: s_vals s) s))
      with (set_vals ((n, 0%nat, b) :: s_vals s) (set_hooks [] s)).
    apply vals_sim; auto.
    + intros k b0. rewrite vget_cons. destruct (keyb (n, 0%nat) k) eqn:Ek.
      * apply keyb_spec in Ek. subst k. intros [= <-]. exact Hb.
      * apply (sim_vals _ _ _ _ _ _ _ _ _ _ S0).
    + intros q t [].
  - apply set_vals_wf; auto. intros k v. rewrite vget_cons.
    destruct (keyb (n, 0%nat) k); [|apply (wf_vals _ _ Wf)]. intros [= ->]. now apply Hv.
Qed.

Lemma pro_hook : forall s m q h, pinv s m -> sget e0 q = None ->
  (forall k, h = HOverwrite k -> (k < N)%nat) -> pinv (set_hook q h s) m.
Proof.
  intros s m q h (S0 & Wf & Mu & Un & Hk) Hq Hn. split; [exact S0|].
  split; [|split; [|split]]; auto.
  - constructor; simpl; try apply Wf. intros p0 m1. rewrite sget_dset.
    destruct (String.eqb q p0); [intros [= ->]; auto|apply (wf_hooks _ _ Wf)].
  - intros q' h'. simpl. rewrite sget_dset. destruct (String.eqb_spec q q'); [congruence|apply Hk].
Qed.

Lemma pro_const : forall s m c s' x, pinv s m -> sget e0 (fst c) = Some (FOne x) ->
  lit_val T W (snd c) = Some x -> import_constant s c = Some s' ->
  exists m', pinv s' m' /\ s_hooks s' = s_hooks s.
Proof.
  intros s m [n l] s' x P Hn Hl E. unfold import_constant in E. simpl in *.
  destruct (import_literal l s) as [[v s1]|] eqn:El; [|discriminate]. cbn [obind] in E.
  pose proof P as (S0 & Wf & Mu & Un & Hk).
  destruct (import_literal_sim T W g m0 [] untracked efin Hbool no_hooks _ _ _ _ _ _ _ S0
    (import_literal_hooks _ _ _ _ [] El) Hl) as (m1 & S1 & X1 & C1).
  destruct (import_literal_wf N l s v s1 Wf El) as (W1 & G1 & V1).
  assert (P1 : pinv s1 m1).
  { split; auto. split; auto. destruct G1. rewrite gr_multi, gr_unpack, gr_hooks. auto. }
  destruct (pro_bind s1 m1 n (BVal v) s' x P1 Hn) as [P2 H2]; auto.
  - exists x. split; auto. unfold fvget. simpl. now rewrite Hn.
  - intros v0 [= <-]. exact V1.
  - exists m1. split; auto. rewrite H2. apply G1.
Qed.

Lemma pro_lazy : forall s m n l s' x, pinv s m -> sget e0 n = Some (FOne x) ->
  lit_val T W l = Some x -> bind n 0 (BLazy l) s = Some s' ->
  pinv s' m /\ s_hooks s' = s_hooks s.
Proof.
  intros s m n l s' x P Hn Hl E. eapply pro_bind; eauto; [|discriminate].
  exists x. split; auto. unfold fvget. simpl. now rewrite Hn.
Qed.

Definition uevent (x : (string * ty) * val) : list (string * hook) :=
  match sget (mutated_user_inputs (pg_outs p)) (fst (fst x)) with
  | Some q => [(q, HOverwrite (vid (snd x)))] | None => [] end.
Definition bevent (x : string * (lit * (string * option string))) : list (string * hook) :=
  match snd (snd (snd x)) with
  | Some q => [(q, HStore (fst (snd (snd x))))] | None => [] end.

Lemma pro_input : forall s m n t k s' x, pinv s m -> sget e0 n = Some (FOne x) ->
  (forall q, sget (mutated_user_inputs (pg_outs p)) n = Some q -> sget e0 q = None) ->
  eget T (m_env T m0) k = Some x ->
  mget T (m_mem T m0) (HOverwrite k) = Some x -> (k < N)%nat -> user_ok p (n, t) -> sget efin n = Some (FOne x) ->
  import_user_input p s ((n, t), V k t) = Some s' ->
  exists m', pinv s' m' /\ s_hooks s' = dsets (uevent ((n, t), V k t)) (s_hooks s).
Proof.
  intros s m n t k s' x P Hn Hq He Hmem Hk (nd & tt & F1 & F2 & F3) Hf E.
  cbn [fst snd] in F1, F3. unfold uevent. cbn [fst snd vid].
  destruct (find_ph_In _ _ _ F1) as (I1 & I2 & I3). rewrite <- I2 in Hf.
  destruct (Hmeta _ _ I1 Hf) as (Ht & _).
  unfold import_user_input in E.
  pose proof P as (S0 & Wf & Mu & Un & Hkk).
  pose proof (sim_base _ _ _ _ _ _ _ _ _ _ S0 _ _ He) as Hem.
  assert (Vk : vok s (V k t)).
  { unfold vok. simpl. pose proof (wf_next _ _ Wf). lia. }
  destruct (sget (mutated_user_inputs (pg_outs p)) n) as [q|] eqn:Em.
  - rewrite F1 in E. cbn [obind] in E. rewrite F2 in E. cbn [obind] in E.
    destruct (emit1 KCopy [V k t] tt s) as [c s1] eqn:E1.
    match type of E with obind ?c _ = _ => destruct c as [s2|] eqn:E2; [|discriminate] end.
    cbn [obind] in E. injection E as <-.
    assert (E1' : emit1 KCopy [V k t] tt (set_hooks [] s) = (c, set_hooks [] s1)).
    { unfold emit1, emit in *. simpl in *. injection E1 as <- <-. reflexivity. }
    destruct (emit1_sim T W g m0 [] untracked efin no_hooks e0 (set_hooks [] s) m KCopy [V k t] tt [x] x c
      (set_hooks [] s1) S0)
      as (m1 & S1 & X1 & C1); auto.
    { simpl. rewrite (sim_frame _ _ _ _ _ _ _ _ _ _ S0) by (intros; discriminate).
      now rewrite Hmem. }
    destruct (emit1_wf _ _ _ _ _ _ _ Wf (Forall_cons _ Vk (Forall_nil _)) E1) as (W1 & G1 & V1).
    assert (P1 : pinv s1 m1).
    { split; auto. split; auto. destruct G1. rewrite gr_multi, gr_unpack, gr_hooks. auto. }
    destruct (pro_bind s1 m1 n (BVal c) s2 x P1 Hn) as [P2 H2]; auto.
    + exists x. split; auto. unfold fvget. simpl. now rewrite Hn.
    + intros v0 [= <-]. exact V1.
    + exists m1. split.
      * apply pro_hook; auto. intros k0 [= <-]. exact Hk.
      * simpl. rewrite H2. destruct G1. now rewrite gr_hooks.
  - destruct (pro_bind s m n (BVal (V k t)) s' x P Hn) as [P2 H2]; auto.
    + exists x. split; [unfold fvget; simpl; now rewrite Hn|]. split; auto. simpl.
      rewrite F3. apply Ht. exact F2.
    + intros v0 [= <-]. exact Vk.
    + exists m. split; auto.
Qed.

Lemma pro_buffer : forall s m x s' v, pinv s m -> sget e0 (fst x) = Some (FOne v) ->
  lit_val T W (fst (snd x)) = Some v ->
  (forall q, snd (snd (snd x)) = Some q -> sget e0 q = None) ->
  import_buffer s x = Some s' ->
  pinv s' m /\ s_hooks s' = dsets (bevent x) (s_hooks s).
Proof.
  intros s m [n [l [tg pr]]] s' v P Hn Hl Hq E. cbn [fst snd] in *. unfold bevent. cbn [fst snd].
  unfold import_buffer in E.
  match type of E with obind ?c _ = _ => destruct c as [s1|] eqn:E1; [|discriminate] end.
  cbn [obind] in E. injection E as <-.
  destruct (pro_lazy _ _ _ _ _ _ P Hn Hl E1) as [P1 H1].
  destruct pr as [q|].
  - split; [apply pro_hook; auto; discriminate|]. simpl. now rewrite H1.
  - split; auto.
Qed.

Lemma pro_consts : forall l s m s', pinv s m ->
  (forall n c, In (n, c) l -> exists x, sget e0 n = Some (FOne x) /\ lit_val T W c = Some x) ->
  foldM import_constant l s = Some s' -> exists m', pinv s' m' /\ s_hooks s' = s_hooks s.
Proof.
  induction l as [|[n c] r IH]; intros s m s' P Hl E; cbn [foldM] in E.
  - injection E as <-. eauto.
  - destruct (import_constant s (n, c)) as [s1|] eqn:E1; [|discriminate]. cbn [obind] in E.
    destruct (Hl n c (or_introl eq_refl)) as (x & H1 & H2).
    destruct (pro_const s m (n, c) s1 x P H1 H2 E1) as (m1 & P1 & K1).
    destruct (IH _ _ _ P1 ltac:(intros; apply Hl; now right) E) as (m2 & P2 & K2).
    exists m2. split; auto. congruence.
Qed.
Lemma pro_params : forall l s m s', pinv s m ->
  (forall n c, In (n, c) l -> exists x, sget e0 n = Some (FOne x) /\ lit_val T W c = Some x) ->
  foldM import_param l s = Some s' -> pinv s' m /\ s_hooks s' = s_hooks s.
Proof.
  induction l as [|[n c] r IH]; intros s m s' P Hl E; cbn [foldM] in E.
  - injection E as <-. eauto.
  - destruct (import_param s (n, c)) as [s1|] eqn:E1; [|discriminate]. cbn [obind] in E.
    destruct (Hl n c (or_introl eq_refl)) as (x & H1 & H2).
    destruct (pro_lazy s m n c s1 x P H1 H2 E1) as (P1 & K1).
    destruct (IH _ _ _ P1 ltac:(intros; apply Hl; now right) E) as (P2 & K2).
    split; auto. congruence.
Qed.
Lemma pro_buffers : forall l s m s', pinv s m ->
  (forall x, In x l -> (exists v, sget e0 (fst x) = Some (FOne v) /\ lit_val T W (fst (snd x)) = Some v) /\
     (forall q, snd (snd (snd x)) = Some q -> sget e0 q = None)) ->
  foldM import_buffer l s = Some s' ->
  pinv s' m /\ s_hooks s' = dsets (flat_map bevent l) (s_hooks s).
Proof.
  induction l as [|x r IH]; intros s m s' P Hl E; cbn [foldM] in E.
  - injection E as <-. eauto.
  - destruct (import_buffer s x) as [s1|] eqn:E1; [|discriminate]. cbn [obind] in E.
    destruct (Hl x (or_introl eq_refl)) as ((v & H1 & H2) & H3).
    destruct (pro_buffer s m x s1 v P H1 H2 H3 E1) as (P1 & K1).
    destruct (IH _ _ _ P1 ltac:(intros; apply Hl; now right) E) as (P2 & K2).
    split; auto. cbn [flat_map]. unfold dsets in *. rewrite fold_left_app. congruence.
Qed.
Lemma pro_inputs : forall us xs k s m s', pinv s m ->
  Forall (user_ok p) us ->
  Forall2 (fun nt v => sget e0 (fst nt) = Some (FOne v) /\ sget efin (fst nt) = Some (FOne v)) us xs ->
  (forall q n, In n (map fst us) -> sget (mutated_user_inputs (pg_outs p)) n = Some q -> sget e0 q = None) ->
  (forall j x, nth_error xs j = Some x -> eget T (m_env T m0) (k + j) = Some x /\
     mget T (m_mem T m0) (HOverwrite (k + j)) = Some x /\ (k + j < N)%nat) ->
  foldM (import_user_input p) (combine us (mkvals k (map snd us))) s = Some s' ->
  exists m', pinv s' m' /\
    s_hooks s' = dsets (flat_map uevent (combine us (mkvals k (map snd us)))) (s_hooks s).
Proof.
  induction us as [|[n t] us IH]; intros xs k s m s' P Ho Hb Hq He E;
    cbn [map snd mkvals combine] in *; cbn [foldM] in E.
  - injection E as <-. eauto.
  - match type of E with obind ?c _ = _ => destruct c as [s1|] eqn:E1; [|discriminate] end.
    cbn [obind] in E. inversion Hb as [|? x ? xs' [B1 B1'] B2]; subst. inversion Ho; subst.
    cbn [fst] in *.
    destruct (He 0%nat x eq_refl) as (He1 & He2 & He3). rewrite Nat.add_0_r in He1, He2, He3.
    destruct (pro_input s m n t k s1 x P B1) as (m1 & P1 & K1); auto.
    { intros q Hm. eapply Hq; eauto. simpl; auto. }
    destruct (IH xs' (S k) s1 m1 s' P1) as (m2 & P2 & K2); auto.
    + intros. eapply Hq; eauto. simpl; auto.
    + intros j y Hj. specialize (He (S j) y Hj). rewrite Nat.add_succ_r in He. exact He.
    + exists m2. split; auto. cbn [flat_map]. unfold dsets in *. rewrite fold_left_app. congruence.
Qed.
End Pro.
