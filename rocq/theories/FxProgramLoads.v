(** Proofs about import_program, third part: SSA form without semantic hypotheses, and how
    often a lifted tensor object is loaded. *)
From Coq Require Import String ZArith Bool Lia List.
From Verif Require Import Prelude FxGraphModel FxGraphSpec FxGraphSsa FxGraphTrace FxGraphProofs
  FxProgramModel FxProgramSpec FxProgramProofs FxProgramRun.
Import ListNotations.
Open Scope nat_scope.

(** ** SSA form *)
Lemma bind_lazy_inv : forall n i l s s', bind n i (BLazy l) s = Some s' ->
  s' = set_vals ((n, i, BLazy l) :: s_vals s) s.
Proof.
  intros n i l s s' E. unfold bind in E. destruct (vget (s_vals s) (n, i)); [discriminate|].
  cbn [s_hooks set_vals] in E. destruct (sget (s_hooks s) n) as [[]|]; simpl in E; congruence.
Qed.
Lemma foldM_inv : forall A S (P : S -> Prop) (f : S -> A -> option S) l,
  (forall s a s', In a l -> P s -> f s a = Some s' -> P s') ->
  forall s s', P s -> foldM f l s = Some s' -> P s'.
Proof.
  induction l as [|a r IH]; intros Hf s s' Hs E; cbn [foldM] in E; [congruence|].
  destruct (f s a) as [s1|] eqn:E1; [|discriminate]. cbn [obind] in E.
  eapply IH; [|eapply Hf; eauto; now left|exact E]. intros. eapply Hf; eauto. now right.
Qed.
Lemma hook_wf : forall N q h s, wf N s -> (forall k, h = HOverwrite k -> k < N) -> wf N (set_hook q h s).
Proof.
  intros N q h s Wf Hk. constructor; simpl; try apply Wf. intros p0 m1. rewrite sget_dset.
  destruct (String.eqb q p0); [intros [= ->]; auto|apply (wf_hooks _ _ Wf)].
Qed.
Lemma lazy_wf : forall N n l s s', wf N s -> bind n 0 (BLazy l) s = Some s' -> wf N s'.
Proof.
  intros N n l s s' Wf E. rewrite (bind_lazy_inv _ _ _ _ _ E). apply set_vals_wf; auto.
  intros k v. rewrite vget_cons. destruct (keyb (n, 0) k); [discriminate|apply (wf_vals _ _ Wf)].
Qed.
Lemma prologue_wf : forall p t sp, prologue p t (empty_st (length (map snd (t_user t)))) = Some sp ->
  wf (length (map snd (t_user t))) sp.
Proof.
  intros p t sp E. set (N := length (map snd (t_user t))) in *. unfold prologue in E.
  assert (Hc : forall l s s', wf N s -> foldM import_constant l s = Some s' -> wf N s').
  { intros l. apply (foldM_inv _ _ (wf N)). intros s [n c] s' _ Wf E1. unfold import_constant in E1.
    simpl in E1. destruct (import_literal c s) as [[v s1]|] eqn:E2; [|discriminate]. cbn [obind] in E1.
    destruct (import_literal_wf _ _ _ _ _ Wf E2) as (W1 & _ & V1). eapply bind_wf; eauto. }
  match type of E with obind ?c _ = _ => destruct c as [q1|] eqn:Q1; [|discriminate] end. cbn [obind] in E.
  match type of E with obind ?c _ = _ => destruct c as [q2|] eqn:Q2; [|discriminate] end. cbn [obind] in E.
  match type of E with obind ?c _ = _ => destruct c as [q3|] eqn:Q3; [|discriminate] end. cbn [obind] in E.
  match type of E with obind ?c _ = _ => destruct c as [q4|] eqn:Q4; [|discriminate] end. cbn [obind] in E.
  assert (W0 : wf N (empty_st N)).
  { constructor; simpl; try discriminate; try contradiction.
    - unfold defs. simpl. apply app_nil_r.
    - intros pre o0 post H. destruct pre; discriminate. }
  apply Hc in Q1; auto. apply Hc in Q2; auto.
  assert (W3 : wf N q3).
  { revert Q3. apply (foldM_inv _ _ (wf N)); auto. intros s [[n ty] v] s' Hin Wf E1.
    apply In_combine_mkvals in Hin. destruct Hin as (j & J1 & ->). cbn [Nat.add snd] in *.
    assert (Hj : j < N).
    { unfold N. rewrite map_length. apply nth_error_Some. congruence. }
    assert (Vj : vok s (V j ty)) by (unfold vok; simpl; pose proof (wf_next _ _ Wf); lia).
    unfold import_user_input in E1.
    destruct (sget (mutated_user_inputs (pg_outs p)) n); [|eapply bind_wf; eauto].
    destruct (find_ph (pg_graph p) n) as [nd|]; [|discriminate]. cbn [obind] in E1.
    destruct (n_ty nd) as [tt|]; [|discriminate]. cbn [obind] in E1.
    destruct (emit1 KCopy [V j ty] tt s) as [c s1] eqn:Ec.
    match type of E1 with obind ?c _ = _ => destruct c as [s2|] eqn:E2; [|discriminate] end.
    cbn [obind] in E1. injection E1 as <-.
    destruct (emit1_wf _ _ _ _ _ _ _ Wf (Forall_cons _ Vj (Forall_nil _)) Ec) as (W1 & _ & V1).
    apply hook_wf; [eapply bind_wf; eauto|]. intros k [= <-]. exact Hj. }
  assert (W4 : wf N q4).
  { revert Q4. apply (foldM_inv _ _ (wf N)); auto. intros s [n l] s' _ Wf E1. eapply lazy_wf; eauto. }
  revert E. apply (foldM_inv _ _ (wf N)); auto. intros s [n [l [tg pr]]] s' _ Wf E1.
  unfold import_buffer in E1.
  match type of E1 with obind ?c _ = _ => destruct c as [s2|] eqn:E2; [|discriminate] end.
  cbn [obind] in E1. injection E1 as <-. apply lazy_wf with (N := N) in E2; auto.
  destruct pr; auto. apply hook_wf; auto. discriminate.
Qed.

(** ** Where table entries come from *)
Section Src.
Variable p : program.
Notation g := (pg_graph p).
Definition from_spec (ins : list ispec) (ks : list ikind) (n : string) (l : lit) : Prop :=
  exists s, In s ins /\ In (i_kind s) ks /\ spec_name s = Some n /\
    (spec_lit p s = Some l \/ l = LNone).

Lemma tables_src : forall ins t0 t, foldM (add_input p) ins t0 = Some t ->
  (forall n l, In (n, l) (t_cin t) -> In (n, l) (t_cin t0) \/ from_spec ins [IUser] n l) /\
  (forall n l, In (n, l) (t_cten t) -> In (n, l) (t_cten t0) \/ from_spec ins [IConstTensor] n l) /\
  (forall n l, In (n, l) (t_par t) -> In (n, l) (t_par t0) \/ from_spec ins [IParam] n l) /\
  (forall n l y, In (n, (l, y)) (t_buf t) -> In (n, (l, y)) (t_buf t0) \/ from_spec ins [IBuffer] n l).
Proof.
  induction ins as [|s r IH]; intros t0 t E; cbn [foldM] in E.
  - injection E as <-. auto.
  - destruct (add_input p t0 s) as [t1|] eqn:E1; [|discriminate]. cbn [obind] in E.
    destruct (IH _ _ E) as (I1 & I2 & I3 & I4).
    assert (Up : forall ks n l, from_spec r ks n l -> from_spec (s :: r) ks n l).
    { intros ks n l (s' & S1 & S2). exists s'. split; [now right|auto]. }
    assert (J : (forall n l, In (n, l) (t_cin t1) -> In (n, l) (t_cin t0) \/ from_spec (s :: r) [IUser] n l) /\
      (forall n l, In (n, l) (t_cten t1) -> In (n, l) (t_cten t0) \/ from_spec (s :: r) [IConstTensor] n l) /\
      (forall n l, In (n, l) (t_par t1) -> In (n, l) (t_par t0) \/ from_spec (s :: r) [IParam] n l) /\
      (forall n l y, In (n, (l, y)) (t_buf t1) -> In (n, (l, y)) (t_buf t0) \/ from_spec (s :: r) [IBuffer] n l)).
    { unfold add_input in E1.
      assert (Here : forall ks n l, In (i_kind s) ks -> spec_name s = Some n ->
         (spec_lit p s = Some l \/ l = LNone) -> from_spec (s :: r) ks n l).
      { intros ks n l H1 H2 H3. exists s. split; [now left|auto]. }
      unfold spec_name, spec_lit in Here.
      destruct (i_kind s) eqn:Ek; destruct (i_arg s) as [n|n|n c|] eqn:Ea; try discriminate;
        repeat match type of E1 with obind ?c _ = _ => destruct c eqn:?; [|discriminate]; cbn [obind] in E1 end;
        injection E1 as <-; cbn [t_user t_cin t_cten t_par t_buf]; repeat split; auto.
      - intros n' l' Hi. apply dset_In in Hi. destruct Hi as [[= -> ->]|Hi]; auto. right.
        apply Here; simpl; auto.
      - intros n' l' Hi. apply dset_In in Hi. destruct Hi as [[= -> ->]|Hi]; auto. right.
        apply Here; simpl; auto.
      - intros n' l' Hi. apply dset_In in Hi. destruct Hi as [[= -> ->]|Hi]; auto. right.
        apply Here; simpl; auto.
        match goal with H : match sget ?a ?b with _ => _ end = Some _ |- _ =>
          destruct (sget a b); [left; congruence|] end.
        destruct (i_persistent s); [discriminate|]. right. congruence.
      - intros n' l' y Hi. apply dset_In in Hi. destruct Hi as [[= -> -> _]|Hi]; auto. right.
        apply Here; simpl; auto. }
    destruct J as (J1 & J2 & J3 & J4). repeat split.
    + intros n l H. destruct (I1 _ _ H) as [H'|H']; auto.
    + intros n l H. destruct (I2 _ _ H) as [H'|H']; auto.
    + intros n l H. destruct (I3 _ _ H) as [H'|H']; auto.
    + intros n l y H. destruct (I4 _ _ _ H) as [H'|H']; eauto.
Qed.

(** Parameters and buffers reach their table. *)
Lemma lazies_spec : forall ins t0 t, foldM (add_input p) ins t0 = Some t ->
  NoDup (map spec_name ins) ->
  (forall s n l, In s ins -> i_arg s = ITensor n -> spec_lit p s = Some l ->
     (i_kind s = IParam -> sget (t_par t) n = Some l) /\
     (i_kind s = IBuffer -> exists y, sget (t_buf t) n = Some (l, y))) /\
  (forall n, ~ In (Some n) (map spec_name ins) ->
     sget (t_buf t) n = sget (t_buf t0) n /\ sget (t_par t) n = sget (t_par t0) n).
Proof.
  induction ins as [|s r IH]; intros t0 t Hf Hn.
  - simpl in Hf. injection Hf as <-. split; auto. intros s n l [].
  - cbn [foldM] in Hf. destruct (add_input p t0 s) as [t1|] eqn:E1; [|discriminate].
    cbn [obind] in Hf. simpl in Hn. inversion Hn as [|? ? Hn1 Hn2]; subst.
    destruct (IH _ _ Hf Hn2) as [I1 I2].
    assert (F : forall n, Some n <> spec_name s -> sget (t_buf t1) n = sget (t_buf t0) n /\
                sget (t_par t1) n = sget (t_par t0) n).
    { intros n Hne. unfold spec_name in Hne. unfold add_input in E1.
      destruct (i_kind s); destruct (i_arg s) as [k|k|k c|]; try discriminate;
        repeat match type of E1 with obind ?c _ = _ => destruct c; [|discriminate]; cbn [obind] in E1 end;
        injection E1 as <-; simpl; auto;
        rewrite sget_dset; destruct (String.eqb_spec k n); split; congruence. }
    split.
    + intros s' n l [<-|Hin] Ha Hl; [|eauto].
      assert (Hnn : ~ In (Some n) (map spec_name r)) by (unfold spec_name in Hn1; now rewrite Ha in Hn1).
      destruct (I2 _ Hnn) as [-> ->]. unfold add_input in E1. unfold spec_lit in Hl.
      split; intros Hk; rewrite Hk, Ha in *.
      * rewrite Hl in E1. cbn [obind] in E1.
        repeat match type of E1 with obind ?c _ = _ => destruct c; [|discriminate]; cbn [obind] in E1 end.
        injection E1 as <-. simpl. now rewrite sget_dset, String.eqb_refl.
      * rewrite Hl in E1. cbn [obind] in E1.
        repeat match type of E1 with obind ?c _ = _ => destruct c; [|discriminate]; cbn [obind] in E1 end.
        injection E1 as <-. simpl. rewrite sget_dset, String.eqb_refl. eauto.
    + intros n Hin. simpl in Hin. destruct (I2 n) as [-> ->]; [tauto|]. apply F.
      intros Hc. apply Hin. auto.
Qed.
Lemma tables_keys : forall ins t0 t, foldM (add_input p) ins t0 = Some t ->
  NoDup (map fst (t_par t0)) -> NoDup (map fst (t_buf t0)) ->
  NoDup (map fst (t_par t)) /\ NoDup (map fst (t_buf t)).
Proof.
  induction ins as [|s r IH]; intros t0 t Hf H1 H2.
  - simpl in Hf. injection Hf as <-. auto.
  - cbn [foldM] in Hf. destruct (add_input p t0 s) as [t1|] eqn:E1; [|discriminate].
    cbn [obind] in Hf. apply (IH _ _ Hf);
    unfold add_input in E1;
      destruct (i_kind s); destruct (i_arg s) as [k|k|k c|]; try discriminate;
        repeat match type of E1 with obind ?c _ = _ => destruct c; [|discriminate]; cbn [obind] in E1 end;
        injection E1 as <-; cbn [t_par t_buf]; auto using dset_keys.
Qed.
End Src.

(** ** How often an object is loaded *)
Section Loads.
Variable id : nat.
Definition total (s : st) : nat := loads id (s_ops s) + pending id (s_vals s).
Definition bpend (b : binding) : nat := match b with BLazy l => lit_loads id l | _ => 0 end.

Lemma bind_total : forall n i b s s', bind n i b s = Some s' ->
  loads id (s_ops s') = loads id (s_ops s) /\
  pending id (s_vals s') = bpend b + pending id (s_vals s).
Proof.
  intros n i b s s' E. unfold bind in E. destruct (vget (s_vals s) (n, i)); [discriminate|].
  cbn [s_hooks set_vals] in E.
  assert (A : pending id ((n, i, b) :: s_vals s) = bpend b + pending id (s_vals s)).
  { rewrite pending_cons. unfold is_pending, bpend, lit_loads. simpl. destruct b as [v|l|]; auto.
    destruct l; auto. }
  destruct (sget (s_hooks s) n) as [[j|b0]|]; [| |injection E as <-; simpl; auto];
    (destruct b as [v|l|]; try discriminate; injection E as <-; simpl in *; rewrite loads_app;
     unfold loads at 2; simpl; split; auto; lia).
Qed.
Lemma hook_total : forall q h s, total (set_hook q h s) = total s.
Proof. reflexivity. Qed.

Definition sum (l : list nat) : nat := fold_right Nat.add 0 l.
Lemma consts_total : forall cs s s', foldM import_constant cs s = Some s' ->
  loads id (s_ops s') = loads id (s_ops s) + sum (map (fun c => lit_loads id (snd c)) cs) /\
  pending id (s_vals s') = pending id (s_vals s).
Proof.
  induction cs as [|c r IH]; intros s s' E; cbn [foldM] in E; [injection E as <-; simpl; auto|].
  destruct (import_constant s c) as [s1|] eqn:E1; [|discriminate]. cbn [obind] in E.
  destruct (IH _ _ E) as [I1 I2]. unfold import_constant in E1.
  destruct (import_literal (snd c) s) as [[v s0]|] eqn:E2; [|discriminate]. cbn [obind] in E1.
  pose proof (import_literal_loads id _ _ _ _ E2) as L. destruct (bind_total _ _ _ _ _ E1) as [B1 B2].
  destruct (import_literal_shape _ _ _ _ E2) as (k & _ & _ & _ & Hv).
  simpl in *. rewrite I1, I2, B1, B2, L, Hv. simpl. lia.
Qed.
Lemma inputs_total : forall p xs s s', foldM (import_user_input p) xs s = Some s' ->
  loads id (s_ops s') = loads id (s_ops s) /\ pending id (s_vals s') = pending id (s_vals s).
Proof.
  intros p xs s s' H. revert H. apply (foldM_inv _ _ (fun s' => loads id (s_ops s') = loads id (s_ops s) /\
    pending id (s_vals s') = pending id (s_vals s))); auto.
  intros s0 [[n ty] v] s1 _ [H1 H2] E. unfold import_user_input in E.
  destruct (sget (mutated_user_inputs (pg_outs p)) n).
  - destruct (find_ph (pg_graph p) n) as [nd|]; [|discriminate]. cbn [obind] in E.
    destruct (n_ty nd) as [tt|]; [|discriminate]. cbn [obind] in E. unfold emit1, emit in E.
    match type of E with obind ?c _ = _ => destruct c as [s3|] eqn:E2; [|discriminate] end.
    cbn [obind] in E. injection E as <-. destruct (bind_total _ _ _ _ _ E2) as [B1 B2].
    simpl in *. rewrite B1, B2, loads_app. unfold loads at 2. simpl. lia.
  - destruct (bind_total _ _ _ _ _ E) as [B1 B2]. simpl in *. lia.
Qed.
Lemma params_total : forall ps s s', foldM import_param ps s = Some s' ->
  loads id (s_ops s') = loads id (s_ops s) /\
  pending id (s_vals s') = pending id (s_vals s) + sum (map (fun c => lit_loads id (snd c)) ps).
Proof.
  induction ps as [|c r IH]; intros s s' E; cbn [foldM] in E; [injection E as <-; simpl; auto|].
  destruct (import_param s c) as [s1|] eqn:E1; [|discriminate]. cbn [obind] in E.
  destruct (IH _ _ E) as [I1 I2]. unfold import_param in E1.
  destruct (bind_total _ _ _ _ _ E1) as [B1 B2]. simpl in *. lia.
Qed.
Lemma buffers_total : forall ps s s', foldM import_buffer ps s = Some s' ->
  loads id (s_ops s') = loads id (s_ops s) /\
  pending id (s_vals s') = pending id (s_vals s) + sum (map (fun c => lit_loads id (fst (snd c))) ps).
Proof.
  induction ps as [|[n [l [tg pr]]] r IH]; intros s s' E; cbn [foldM] in E; [injection E as <-; simpl; auto|].
  match type of E with obind ?c _ = _ => destruct c as [s1|] eqn:E1; [|discriminate] end. cbn [obind] in E.
  destruct (IH _ _ E) as [I1 I2]. unfold import_buffer in E1.
  match type of E1 with obind ?c _ = _ => destruct c as [s2|] eqn:E2; [|discriminate] end. cbn [obind] in E1.
  destruct (bind_total _ _ _ _ _ E2) as [B1 B2]. injection E1 as <-.
  destruct pr; simpl in *; lia.
Qed.
Lemma prologue_total : forall p t n sp, prologue p t (empty_st n) = Some sp ->
  loads id (s_ops sp) = sum (map (fun c => lit_loads id (snd c)) (t_cten t)) +
                        sum (map (fun c => lit_loads id (snd c)) (t_cin t)) /\
  pending id (s_vals sp) = sum (map (fun c => lit_loads id (snd c)) (t_par t)) +
                           sum (map (fun c => lit_loads id (fst (snd c))) (t_buf t)).
Proof.
  intros p t n sp E. unfold prologue in E.
  match type of E with obind ?c _ = _ => destruct c as [q1|] eqn:Q1; [|discriminate] end. cbn [obind] in E.
  match type of E with obind ?c _ = _ => destruct c as [q2|] eqn:Q2; [|discriminate] end. cbn [obind] in E.
  match type of E with obind ?c _ = _ => destruct c as [q3|] eqn:Q3; [|discriminate] end. cbn [obind] in E.
  match type of E with obind ?c _ = _ => destruct c as [q4|] eqn:Q4; [|discriminate] end. cbn [obind] in E.
  apply consts_total in Q1. apply consts_total in Q2. apply inputs_total in Q3. apply params_total in Q4.
  apply buffers_total in E. unfold loads, pending in *. simpl in Q1. lia.
Qed.

Lemma sum_zero : forall A (f : A -> nat) l, (forall x, In x l -> f x = 0) -> sum (map f l) = 0.
Proof. induction l as [|a r IH]; simpl; intros H; auto. rewrite (H a), IH; auto. Qed.
Lemma sum_one : forall A (f : string * A -> nat) l n x, NoDup (map fst l) -> sget l n = Some x ->
  (forall k y, In (k, y) l -> k <> n -> f (k, y) = 0) -> sum (map f l) = f (n, x).
Proof.
  induction l as [|[k y] r IH]; simpl; intros n x Hn Hs Hz; [discriminate|].
  inversion Hn as [|? ? H1 H2]; subst. destruct (String.eqb_spec k n).
  - injection Hs as ->. subst. rewrite sum_zero; [lia|]. intros [k z] Hi. apply Hz; auto.
    intros ->. apply H1. apply in_map_iff. exists (n, z). auto.
  - rewrite (Hz k y); auto.
Qed.
Lemma sum_le_one : forall A (f : string * A -> nat) l n, NoDup (map fst l) ->
  (forall k y, In (k, y) l -> f (k, y) <= 1) ->
  (forall k y, In (k, y) l -> k <> n -> f (k, y) = 0) -> sum (map f l) <= 1.
Proof.
  induction l as [|[k y] r IH]; simpl; intros n Hn H1 Hz; [lia|].
  inversion Hn as [|? ? N1 N2]; subst. destruct (String.eqb_spec k n).
  - subst. rewrite sum_zero; [specialize (H1 n y (or_introl eq_refl)); lia|].
    intros [k z] Hi. apply Hz; auto. intros ->. apply N1. apply in_map_iff. exists (n, z). auto.
  - rewrite (Hz k y); auto. simpl. apply IH with n; auto.
Qed.

Lemma not_object : forall l, ~ is_object id l -> lit_loads id l = 0.
Proof.
  intros l H. destruct l as [| | | | |i b|b|]; simpl in *; auto. destruct (Nat.eqb_spec i id); tauto.
Qed.
Lemma not_object_oklit : forall l, ~ is_object id l -> oklit (fun i => i <> id) l.
Proof. intros [| | | | |i b|b|] H; simpl in *; auto. Qed.

(** The argument predicates of the trace lemmas, from the mentions in the graph. *)
Lemma okarg_lits : forall (okf : string -> Prop) attr a,
  (forall l, In l (arg_lits a) -> ~ is_object id l) ->
  (forall n, In n (arg_nodes a) -> okf n) ->
  (forall n l, attr n = Some (Some l) -> ~ is_object id l) ->
  okarg (fun i => i <> id) okf attr a.
Proof.
  intros okf attr. fix IH 1. intros [n|l|l|l] H1 H2 H3.
  - constructor. split; [apply H2; simpl; auto|]. intros l Hl. apply not_object_oklit. eauto.
  - constructor. apply not_object_oklit. apply H1. simpl. auto.
  - constructor. simpl in H1, H2. induction l as [|a r IHr]; constructor.
    + apply IH; auto; intros; [apply H1|apply H2]; simpl; apply in_or_app; auto.
    + apply IHr; intros; [apply H1|apply H2]; simpl; apply in_or_app; auto.
  - constructor. simpl in H1, H2. induction l as [|a r IHr]; constructor.
    + apply IH; auto; intros; [apply H1|apply H2]; simpl; apply in_or_app; auto.
    + apply IHr; intros; [apply H1|apply H2]; simpl; apply in_or_app; auto.
Qed.
End Loads.

Section Lifted.
Variable registry : string -> option schema.
Variable p : program.
Notation g := (pg_graph p).
Variable id : nat.
Variable sp : ispec.
Variable n : string.
Hypothesis Hlift : lifted_only registry p id sp.
Hypothesis Hkind : i_kind sp = IParam \/ i_kind sp = IBuffer.
Hypothesis Harg : i_arg sp = ITensor n.

Lemma spec_entry : forall ks k l, from_spec p (pg_ins p) ks k l -> lit_loads id l <> 0 ->
  In (i_kind sp) ks /\ k = n.
Proof.
  intros ks k l (s & S1 & S2 & S3 & S4) Hl. destruct Hlift as (_ & L & _).
  assert (is_object id l).
  { destruct l as [| | | | |i b|b|]; simpl in *; try tauto. destruct (Nat.eqb_spec i id); tauto. }
  destruct S4 as [S4|S4]; [|subst; simpl in Hl; tauto].
  rewrite (L _ _ S1 S4 H) in *. split; auto. unfold spec_name in S3. rewrite Harg in S3. congruence.
Qed.
Lemma prologue_lifted : forall t sp0, input_tables p = Some t ->
  prologue p t (empty_st (length (map snd (t_user t)))) = Some sp0 ->
  loads id (s_ops sp0) = 0 /\ pending id (s_vals sp0) <= 1 /\
  (NoDup (map spec_name (pg_ins p)) -> forall l, spec_lit p sp = Some l -> is_object id l ->
     pending id (s_vals sp0) = 1).
Proof.
  intros t sp0 Ht Hp. destruct (prologue_total id _ _ _ _ Hp) as [-> ->].
  destruct (tables_src p _ _ _ Ht) as (S1 & S2 & S3 & S4). simpl in S1, S2, S3, S4.
  destruct (tables_keys p _ _ _ Ht (NoDup_nil _) (NoDup_nil _)) as [K1 K2].
  assert (Z : forall A (f : A -> nat) tab (key : A -> string) (lt : A -> lit) ks,
     (forall x, In x tab -> from_spec p (pg_ins p) ks (key x) (lt x)) ->
     (forall x, f x = lit_loads id (lt x)) -> ~ In (i_kind sp) ks -> sum (map f tab) = 0).
  { intros A f tab key lt ks H1 H2 H3. apply sum_zero. intros x Hx. rewrite H2.
    destruct (Nat.eq_dec (lit_loads id (lt x)) 0) as [|Hne]; auto.
    destruct (spec_entry _ _ _ (H1 _ Hx) Hne). tauto. }
  assert (Le : forall l, lit_loads id l <= 1).
  { intros [| | | | |i b|b|]; simpl; try lia. destruct (Nat.eqb i id); lia. }
  assert (C1 : sum (map (fun c => lit_loads id (snd c)) (t_cten t)) = 0).
  { apply (Z _ _ _ fst snd [IConstTensor]); auto.
    - intros [k l] Hx. destruct (S2 _ _ Hx) as [[]|]; auto.
    - intros [H|[]]; destruct Hkind; congruence. }
  assert (C2 : sum (map (fun c => lit_loads id (snd c)) (t_cin t)) = 0).
  { apply (Z _ _ _ fst snd [IUser]); auto.
    - intros [k l] Hx. destruct (S1 _ _ Hx) as [[]|]; auto.
    - intros [H|[]]; destruct Hkind; congruence. }
  assert (P1 : i_kind sp <> IParam -> sum (map (fun c => lit_loads id (snd c)) (t_par t)) = 0).
  { intros Hne. apply (Z _ _ _ fst snd [IParam]); auto.
    - intros [k l] Hx. destruct (S3 _ _ Hx) as [[]|]; auto.
    - intros [H|[]]; congruence. }
  assert (P2 : i_kind sp <> IBuffer -> sum (map (fun c => lit_loads id (fst (snd c))) (t_buf t)) = 0).
  { intros Hne. apply (Z _ _ _ fst (fun x => fst (snd x)) [IBuffer]); auto.
    - intros [k [l y]] Hx. destruct (S4 _ _ _ Hx) as [[]|]; auto.
    - intros [H|[]]; congruence. }
  assert (Ne : forall k l, from_spec p (pg_ins p) [IParam] k l \/ from_spec p (pg_ins p) [IBuffer] k l ->
     k <> n -> lit_loads id l = 0).
  { intros k l Hf Hk. destruct (Nat.eq_dec (lit_loads id l) 0) as [|Hne]; auto.
    destruct Hf as [Hf|Hf]; destruct (spec_entry _ _ _ Hf Hne); tauto. }
  rewrite C1, C2. split; auto. destruct Hkind as [Hk|Hk].
  - rewrite P2 by congruence. rewrite Nat.add_0_r. split.
    + apply sum_le_one with n; auto. intros k l Hi Hk'. simpl.
      destruct (S3 _ _ Hi) as [[]|]; eauto.
    + intros Hnd l Hl Ho. destruct (lazies_spec p _ _ _ Ht Hnd) as [Z1 _].
      destruct (Z1 sp n l (proj1 Hlift) Harg Hl) as [Z2 _].
      rewrite (sum_one _ _ _ n l K1 (Z2 Hk)).
      * simpl. destruct l as [| | | | |i b|b|]; simpl in *; try tauto. subst. now rewrite Nat.eqb_refl.
      * intros k y Hi Hk'. simpl. destruct (S3 _ _ Hi) as [[]|]; eauto.
  - rewrite P1 by congruence. cbn [Nat.add]. split.
    + apply sum_le_one with n; auto. intros k [l y] Hi Hk'. simpl.
      destruct (S4 _ _ _ Hi) as [[]|]; eauto.
    + intros Hnd l Hl Ho. destruct (lazies_spec p _ _ _ Ht Hnd) as [Z1 _].
      destruct (Z1 sp n l (proj1 Hlift) Harg Hl) as [_ Z2]. destruct (Z2 Hk) as [y Hy].
      rewrite (sum_one _ _ _ n (l, y) K2 Hy).
      * simpl. destruct l as [| | | | |i b|b|]; simpl in *; try tauto. subst. now rewrite Nat.eqb_refl.
      * intros k [l' y'] Hi Hk'. simpl. destruct (S4 _ _ _ Hi) as [[]|]; eauto.
Qed.

Lemma schema_okps : forall sch, (forall l, In l (schema_lits sch) -> ~ is_object id l) ->
  okps (fun i => i <> id) (s_params sch).
Proof.
  intros sch H q d Hq Hd. assert (H' : forall l, In l (dflt_lits d) -> ~ is_object id l).
  { intros l Hl. apply H. unfold schema_lits. apply in_flat_map. exists q. split; auto. now rewrite Hd. }
  destruct d; simpl in *.
  - apply not_object_oklit. apply H'. auto.
  - apply Forall_forall. intros x Hx. apply not_object_oklit. auto.
Qed.
Lemma g_attr_object : forall k l, g_attr g k = Some (Some l) -> ~ is_object id l.
Proof.
  intros k l H. destruct Hlift as (_ & _ & _ & L & _). unfold g_attr in H.
  destruct (find_node g k) as [nd|] eqn:Ef; [|discriminate].
  destruct (n_op nd) eqn:Eo; try discriminate. injection H as ->.
  eapply L; eauto. unfold find_node in Ef. eapply find_some; eauto.
Qed.

(** The nodes and the return, as importer steps that never load [id] directly and force only
    nodes satisfying [okf]. *)
Lemma import_steps : forall (okf : string -> Prop) ret s0 s1 cs us pos s2 vs o,
  (forall nd a k, In nd g -> In a (node_args nd) -> In k (arg_nodes a) -> okf k) ->
  (forall k, In (Some k) us -> okf k) ->
  user_outputs g o (pg_outs p) = Some (us, cs) ->
  import_nodes (g_attr g) (g_scalar g) registry g true (filter is_producer g) [] s0 = Some (ret, s1) ->
  return_values cs pos us s1 = Some (vs, s2) ->
  steps (fun i => i <> id) okf s0 s1 /\ steps (fun i => i <> id) okf s1 s2.
Proof.
  intros okf ret s0 s1 cs us pos s2 vs o Hn Hu Ho E1 E2.
  destruct Hlift as (_ & _ & L3 & _ & L5 & L6 & L7). split.
  - eapply import_nodes_steps; [| |exact E1].
    + intros k sch Hs. apply schema_okps. eauto.
    + apply Forall_forall. intros nd Hi. apply filter_In in Hi. destruct Hi as [Hi _].
      assert (A : forall a, In a (node_args nd) -> okarg (fun i => i <> id) okf (g_attr g) a).
      { intros a Ha. apply okarg_lits; eauto using g_attr_object. }
      split; [|split].
      * apply Forall_forall. intros a Ha. apply A. apply in_or_app. auto.
      * intros k a Ha. apply A. apply in_or_app. right. apply sget_In in Ha. apply in_map_iff.
        exists (k, a). auto.
      * intros sch Hs. apply schema_okps. eauto.
  - assert (Hc : forall k l, In (k, l) cs -> ~ is_object id l).
    { clear - Ho L7. revert o us cs Ho L7. induction (pg_outs p) as [|x r IH]; intros o us cs Ho L7.
      - simpl in Ho. injection Ho as <- <-. intros k l [].
      - cbn [user_outputs] in Ho.
        assert (L7' : forall o l, In o r -> os_arg o = OConst l -> ~ is_object id l)
          by (intros; eapply L7; eauto; now right).
        destruct (os_kind x); [|eauto..].
        destruct (os_arg x) as [k|k|c|] eqn:Ea; try discriminate;
          repeat match type of Ho with obind ?c _ = _ => destruct c as [[? ?]|] eqn:?; [|discriminate]; cbn [obind] in Ho
                 | obind ?c _ = _ => destruct c eqn:?; [|discriminate]; cbn [obind] in Ho end;
          injection Ho as <- <-; eauto.
        intros k1 l1 [[= <- <-]|Hi]; [|eauto]. eapply L7; eauto. now left. }
    clear - E2 Hu Hc. revert pos s1 s2 vs E2. induction us as [|x r IH]; intros pos s1 s2 vs E2;
      cbn [return_values] in E2; [injection E2 as _ <-; constructor|].
    match type of E2 with obind ?c _ = _ => destruct c as [[v sa]|] eqn:E1; [|discriminate] end.
    cbn [obind] in E2.
    match type of E2 with obind ?c _ = _ => destruct c as [[vs' sb]|] eqn:E3; [|discriminate] end.
    cbn [obind] in E2. injection E2 as _ <-.
    eapply steps_trans; [|eapply IH; [|exact E3]; intros; apply Hu; now right].
    destruct x as [k|].
    + eapply resolve_steps; [|exact E1]. apply Hu. now left.
    + destruct (find _ cs) as [[k l]|] eqn:Ef; [|discriminate]. cbn [obind] in E1.
      apply find_some in Ef. eapply import_literal_steps; [|exact E1]. apply not_object_oklit.
      eapply Hc. apply Ef.
Qed.
End Lifted.

(** ** The whole import *)
Lemma return_steps : forall cs us pos s vs s', return_values cs pos us s = Some (vs, s') ->
  steps (fun _ => True) (fun _ => True) s s'.
Proof.
  intros cs. induction us as [|x r IH]; intros pos s vs s' E; cbn [return_values] in E;
    [injection E as _ <-; constructor|].
  match type of E with obind ?c _ = _ => destruct c as [[v sa]|] eqn:E1; [|discriminate] end.
  cbn [obind] in E.
  match type of E with obind ?c _ = _ => destruct c as [[vs' sb]|] eqn:E3; [|discriminate] end.
  cbn [obind] in E. injection E as _ <-. eapply steps_trans; [|eapply IH; eauto].
  destruct x as [k|].
  - eapply resolve_steps; [|exact E1]. auto.
  - destruct (find _ cs) as [[k l]|] eqn:Ef; [|discriminate]. cbn [obind] in E1.
    eapply import_literal_steps; [|exact E1]. apply oklit_all.
Qed.
Lemma dsets_later : forall A (evs d : list (string * A)) k v, 
  (exists a b, evs = a ++ (k, v) :: b /\ forall v', ~ In (k, v') b) ->
  sget (dsets evs d) k = Some v.
Proof.
  intros A evs d k v (a & b & -> & H). unfold dsets. rewrite fold_left_app. simpl.
  change (sget (dsets b (dset (dsets a d) k v)) k = Some v). rewrite dsets_none.
  - now rewrite sget_dset, String.eqb_refl.
  - intros v' Hv. eapply H; eauto.
Qed.
Section Assembled.
Variable T : Type.
Variable W : world T.
Variable registry : string -> option schema.
Variable p : program.
Variable inputs outs : list (rv T).
Variable efin : fenv T.
Notation g := (pg_graph p).
Notation m0 := (start T inputs).
Hypothesis Hbool : bool_cast_ok T W.
Hypothesis Hscal : scalar_variants_ok T W registry g.
Hypothesis Hcanon : canonicalize_ok T W registry g.
Hypothesis Hdrop : dropped_ok registry g.
Hypothesis Htens : tensor_operands_ok registry g.
Hypothesis Hexp : export_ok p.
Hypothesis Hcomp : computed_mutations p.
Hypothesis Hmeta : meta_ok T g efin.
Hypothesis Hrun : program_run T W p inputs = Some (efin, outs).
Variable tys : list ty.
Variable ops : list op.
Variable vs : list val.
Hypothesis Himp : import_program registry p = Some (tys, ops, vs).

Lemma assembled : exists binds t m,
  bind_inputs T W p (pg_ins p) inputs = Some binds /\ input_tables p = Some t /\
  tys = map snd (t_user t) /\ length tys = length inputs /\
  run T W m0 ops = Some m /\ Forall2 (holds T m) vs outs /\
  (forall q l x, sget (hooks_of p t) q = Some l -> sget efin q = Some (FOne x) ->
     mget T (m_mem T m) l = Some x) /\
  (forall l, (forall q, sget (hooks_of p t) q <> Some l) ->
     mget T (m_mem T m) l = mget T (m_mem T m0) l).
Proof.
  destruct (import_program_inv _ _ _ _ _ Himp) as (us & cs & t & sp & ret & s1 & s2 &
    U & Ht & Hty & Hp & Hi & Hr & Ho).
  destruct (program_body T W registry p inputs outs efin Hbool Hscal Hcanon Hdrop Htens Hexp Hcomp
    Hmeta Hrun t sp ret s1 Ht Hp Hi) as (Len & Wf & [m1 S1] & Bd).
  unfold program_run in Hrun.
  destruct (bind_inputs T W p (pg_ins p) inputs) as [binds|] eqn:Eb; [|discriminate]. cbn [obind] in Hrun.
  destruct (mapM (fun nd => sget binds (n_name nd)) (placeholders g)) as [phs|]; [|discriminate].
  cbn [obind] in Hrun.
  destruct (fx_run T W [] g phs) as [[e0 r0]|]; [|discriminate]. cbn [obind] in Hrun.
  destruct (mapM (out_value T W e0) (filter user_out (pg_outs p))) as [xs|] eqn:Ex; [|discriminate].
  cbn [obind] in Hrun. injection Hrun as -> ->.
  assert (Hmut : forall q k, sget (hooks_of p t) q = Some (HOverwrite k) -> eget T (m_env T m0) k <> None).
  { intros q k Hq. rewrite start_env. apply nth_error_Some.
    destruct (event_mutation T W p inputs binds t q _ Eb Ht Hq) as [(k' & o & [= <-] & K & _)|(b & o & [=] & _)].
    destruct (tables_start T W p inputs binds Eb t Ht) as (T1 & _). rewrite <- T1 in K.
    rewrite <- Len, <- (map_length fst). apply nth_error_Some. congruence. }
  destruct (return_sim T W g m0 (hooks_of p t) (tracked_of T p efin t) efin Hbool Hmut
    (pg_outs p) 0 0 us cs [] s1 m1 vs s2 outs U) as (m2 & S2 & X2 & V2); auto; [intros k []|].
  exists binds, t, m2. rewrite Ho. split; auto. split; auto. split; auto. split; [now rewrite Hty, map_length|].
  split; [apply (sim_run _ _ _ _ _ _ _ _ _ _ S2)|]. split; auto. split.
  - intros q l x Hq Hx. pose proof (sim_trk _ _ _ _ _ _ _ _ _ _ S2 q l) as K.
    assert (Tr : tracked_of T p efin t q l) by (split; eauto). specialize (K Tr).
    assert (Hb : vget (s_vals s2) (q, 0) <> None).
    { eapply steps_keys; [eapply return_steps; exact Hr|]. eapply Bd; eauto. }
    destruct (vget (s_vals s2) (q, 0)) as [[v|l'|]|] eqn:Ev; try tauto.
    pose proof (sim_vals _ _ _ _ _ _ _ _ _ _ S2 _ _ Ev) as B. unfold bok in B. simpl in B.
    rewrite K. destruct B as (x' & B1 & B2). unfold fvget in B1. simpl in B1. rewrite Hx in B1.
    simpl in B1. injection B1 as <-. apply B2.
  - apply (sim_frame _ _ _ _ _ _ _ _ _ _ S2).
Qed.
End Assembled.

Lemma pending_lazy : forall id b vals k, vget vals k = Some (BLazy (LTensor id b)) ->
  1 <= pending id vals.
Proof.
  induction vals as [|[k0 b0] r IH]; simpl; intros k H; [discriminate|]. rewrite pending_cons.
  destruct (keyb k0 k).
  - injection H as ->. unfold is_pending. simpl. rewrite Nat.eqb_refl. lia.
  - specialize (IH _ H). lia.
Qed.
(** Bindings never disappear while the prologue runs, and each lazy entry is bound. *)
Lemma bind_get : forall n i b s s', bind n i b s = Some s' ->
  vget (s_vals s') (n, i) = Some b /\
  (forall k x, vget (s_vals s) k = Some x -> vget (s_vals s') k = Some x).
Proof.
  intros n i b s s' E. unfold bind in E. destruct (vget (s_vals s) (n, i)) eqn:En; [discriminate|].
  cbn [s_hooks set_vals] in E.
  assert (A : s_vals s' = (n, i, b) :: s_vals s).
  { destruct (sget (s_hooks s) n) as [[j|b0]|]; [| |injection E as <-; auto];
      destruct b as [v|l|]; try discriminate; injection E as <-; auto. }
  rewrite A. split.
  - rewrite vget_cons. destruct (keyb (n, i) (n, i)) eqn:Ek; auto.
    assert (keyb (n, i) (n, i) = true) by now apply keyb_spec. congruence.
  - intros k x Hx. rewrite vget_cons. destruct (keyb (n, i) k) eqn:Ek; auto.
    apply keyb_spec in Ek. subst k. congruence.
Qed.
Lemma params_get : forall ps s s', foldM import_param ps s = Some s' ->
  (forall k x, vget (s_vals s) k = Some x -> vget (s_vals s') k = Some x) /\
  (forall n l, In (n, l) ps -> vget (s_vals s') (n, 0) = Some (BLazy l)).
Proof.
  induction ps as [|c r IH]; intros s s' E; cbn [foldM] in E; [injection E as <-; split; auto; intros n l []|].
  destruct (import_param s c) as [s1|] eqn:E1; [|discriminate]. cbn [obind] in E.
  destruct (IH _ _ E) as [I1 I2]. unfold import_param in E1. destruct (bind_get _ _ _ _ _ E1) as [B1 B2].
  split; auto. intros n l [->|Hi]; auto.
Qed.
Lemma buffers_get : forall ps s s', foldM import_buffer ps s = Some s' ->
  (forall k x, vget (s_vals s) k = Some x -> vget (s_vals s') k = Some x) /\
  (forall n l y, In (n, (l, y)) ps -> vget (s_vals s') (n, 0) = Some (BLazy l)).
Proof.
  induction ps as [|[n0 [l0 [tg pr]]] r IH]; intros s s' E; cbn [foldM] in E; [injection E as <-; split; auto; intros n l y []|].
  match type of E with obind ?c _ = _ => destruct c as [s1|] eqn:E1; [|discriminate] end. cbn [obind] in E.
  destruct (IH _ _ E) as [I1 I2]. unfold import_buffer in E1.
  match type of E1 with obind ?c _ = _ => destruct c as [s2|] eqn:E2; [|discriminate] end. cbn [obind] in E1.
  destruct (bind_get _ _ _ _ _ E2) as [B1 B2].
  assert (A : s_vals s1 = s_vals s2) by (destruct pr; injection E1 as <-; auto). rewrite A in I1.
  split; auto. intros n l y [[= <- <- <-]|Hi]; eauto.
Qed.
Lemma prologue_lazy : forall p t sp, input_tables p = Some t ->
  prologue p t (empty_st (length (map snd (t_user t)))) = Some sp ->
  NoDup (map spec_name (pg_ins p)) ->
  forall s n l, In s (pg_ins p) -> i_arg s = ITensor n -> spec_lit p s = Some l ->
  i_kind s = IParam \/ i_kind s = IBuffer -> vget (s_vals sp) (n, 0) = Some (BLazy l).
Proof.
  intros p t sp Ht E Hnd s n l Hs Ha Hl Hk. unfold prologue in E.
  match type of E with obind ?c _ = _ => destruct c as [q1|] eqn:Q1; [|discriminate] end. cbn [obind] in E.
  match type of E with obind ?c _ = _ => destruct c as [q2|] eqn:Q2; [|discriminate] end. cbn [obind] in E.
  match type of E with obind ?c _ = _ => destruct c as [q3|] eqn:Q3; [|discriminate] end. cbn [obind] in E.
  match type of E with obind ?c _ = _ => destruct c as [q4|] eqn:Q4; [|discriminate] end. cbn [obind] in E.
  destruct (params_get _ _ _ Q4) as [_ G1]. destruct (buffers_get _ _ _ E) as [G2 G3].
  destruct (lazies_spec p _ _ _ Ht Hnd) as [Z1 _]. destruct (Z1 s n l Hs Ha Hl) as [Z2 Z3].
  destruct Hk as [Hk|Hk].
  - apply G2, G1. apply sget_In. auto.
  - destruct (Z3 Hk) as [y Hy]. eapply G3. apply sget_In. exact Hy.
Qed.

(** ** When the object is loaded *)
Section Forced.
Variable id : nat.
Variable n : string.
Definition lazy_inv (s : st) : Prop := NoDup (map fst (s_vals s)) /\
  forall k b, In (k, BLazy (LTensor id b)) (s_vals s) -> k = (n, 0).

Lemma vget_None_keys : forall vals k, vget vals k = None -> ~ In k (map fst vals).
Proof.
  induction vals as [|[k0 b] r IH]; intros k; [tauto|]. rewrite vget_cons.
  destruct (keyb k0 k) eqn:E; [discriminate|]. intros H [Hk|Hc]; [|eapply IH; eauto].
  simpl in Hk. subst k0. assert (keyb k k = true) by now apply keyb_spec. congruence.
Qed.
Lemma cons_inv : forall s k b, lazy_inv s -> vget (s_vals s) k = None ->
  (forall bb, b = BLazy (LTensor id bb) -> k = (n, 0)) ->
  NoDup (map fst ((k, b) :: s_vals s)) /\
  forall k' bb, In (k', BLazy (LTensor id bb)) ((k, b) :: s_vals s) -> k' = (n, 0).
Proof.
  intros s k b [H1 H2] Hk Hb. split.
  - simpl. constructor; auto. now apply vget_None_keys.
  - intros k' bb [[= <- ->]|Hi]; eauto.
Qed.
Lemma bind_inv : forall k i b s s', bind k i b s = Some s' -> lazy_inv s ->
  (forall bb, b = BLazy (LTensor id bb) -> (k, i) = (n, 0)) -> lazy_inv s'.
Proof.
  intros k i b s s' E I Hb. unfold bind in E. destruct (vget (s_vals s) (k, i)) eqn:En; [discriminate|].
  cbn [s_hooks set_vals] in E. destruct (cons_inv _ _ _ I En Hb) as [C1 C2].
  assert (A : s_vals s' = (k, i, b) :: s_vals s).
  { destruct (sget (s_hooks s) k) as [[j|b0]|]; [| |injection E as <-; auto];
      destruct b as [v|l|]; try discriminate; injection E as <-; auto. }
  unfold lazy_inv. rewrite A. split; auto.
Qed.
Lemma vset_keys : forall vals k b, map fst (vset vals k b) = map fst vals.
Proof.
  induction vals as [|[k0 b0] r IH]; intros k b; simpl; auto. destruct (keyb k0 k); simpl; auto.
  now rewrite IH.
Qed.
Lemma vset_lazy_In : forall vals k v k' l, In (k', BLazy l) (vset vals k (BVal v)) ->
  In (k', BLazy l) vals.
Proof.
  induction vals as [|[k0 b0] r IH]; intros k v k' l H; simpl in *; auto.
  destruct (keyb k0 k).
  - destruct H as [[=]|H]; auto.
  - destruct H as [H|H]; eauto.
Qed.
Lemma steps_inv : forall Lid okf s s', steps Lid okf s s' -> lazy_inv s -> lazy_inv s'.
Proof.
  induction 1 as [|a b c Ht _ IH]; intros I; auto. apply IH. destruct Ht; auto.
  - destruct (cons_inv s (n0, i) b I H) as [C1 C2]; [intros bb ->; now elim (H0 (LTensor id bb))|].
    split; auto.
  - destruct (import_literal_shape _ _ _ _ H1) as (k & _ & _ & _ & Hv). unfold lazy_inv. simpl.
    rewrite vset_keys, Hv. split; [apply I|]. intros k' b Hi. apply vset_lazy_In in Hi. eapply I; eauto.
Qed.
Lemma forced_pending : forall s v, lazy_inv s -> vget (s_vals s) (n, 0) = Some (BVal v) ->
  pending id (s_vals s) = 0.
Proof.
  intros s v [H1 H2]. induction (s_vals s) as [|[k b] r IH]; intros Hv; auto.
  rewrite vget_cons in Hv. simpl in H1. inversion H1 as [|? ? N1 N2]; subst.
  rewrite pending_cons. destruct (keyb k (n, 0)) eqn:Ek.
  - injection Hv as ->. apply keyb_spec in Ek. subst k. unfold is_pending. simpl.
    unfold pending. assert (A : filter (is_pending id) r = []); [|now rewrite A].
    assert (B : forall x, In x r -> is_pending id x = false).
    { intros [k b] Hx. unfold is_pending. simpl. destruct b as [?|l|]; auto. destruct l as [| | | | |i bb|bb|]; auto.
      destruct (Nat.eqb_spec i id); auto. subst. elim N1. apply in_map_iff.
      exists (k, BLazy (LTensor id bb)). split; auto. simpl. eapply H2. right. exact Hx. }
    clear - B. induction r as [|x r IH]; auto. simpl. rewrite B; [|now left]. apply IH.
    intros; apply B; now right.
  - assert (is_pending id (k, b) = false) as ->.
    { unfold is_pending. simpl. destruct b as [?|l|]; auto. destruct l as [| | | | |i bb|bb|]; auto.
      destruct (Nat.eqb_spec i id); auto. subst.
      rewrite (H2 k bb (or_introl eq_refl)) in Ek.
      assert (keyb (n, 0) (n, 0) = true) by now apply keyb_spec. congruence. }
    simpl. apply IH; auto. intros. eapply H2. right. eauto.
Qed.
Lemma resolve_forces : forall s v s', resolve n 0 s = Some (v, s') ->
  vget (s_vals s') (n, 0) = Some (BVal v).
Proof.
  intros s v s' H. unfold resolve in H. destruct (vget (s_vals s) (n, 0)) as [[x|l|]|] eqn:E; try discriminate.
  - injection H as <- <-. auto.
  - destruct (import_literal l s) as [[x s1]|] eqn:E1; [|discriminate]. cbn [obind] in H.
    injection H as <- <-. simpl. destruct (import_literal_shape _ _ _ _ E1) as (k & _ & _ & _ & Hv).
    rewrite Hv. clear - E. induction (s_vals s) as [|[k0 b0] r IH]; [discriminate|].
    rewrite vget_cons in E. simpl. destruct (keyb k0 (n, 0)) eqn:Ek; simpl; rewrite ?Ek; auto.
Qed.
Lemma params_force : forall attr ps i args kw s vs s', 
  import_params attr i ps args kw s = Some (vs, s') ->
  forall j q, nth_error ps j = Some q -> nth_error args (i + j) = Some (ANode n) ->
  exists v, vget (s_vals s') (n, 0) = Some (BVal v).
Proof.
  intros attr. induction ps as [|q0 r IH]; intros i args kw s vs s' E j q Hj Ha; [destruct j; discriminate|].
  cbn [import_params] in E.
  match type of E with obind ?c _ = _ => destruct c as [[v1 s1]|] eqn:E1; [|discriminate] end. cbn [obind] in E.
  match type of E with obind ?c _ = _ => destruct c as [[v2 s2]|] eqn:E2; [|discriminate] end. cbn [obind] in E.
  injection E as <- <-. destruct j as [|j].
  - rewrite Nat.add_0_r in Ha. rewrite Ha in E1. unfold import_arg in E1.
    destruct (memb n (s_multi s)); [discriminate|].
    match type of E1 with obind ?c _ = _ => destruct c as [s3|] eqn:E3; [|discriminate] end. cbn [obind] in E1.
    match type of E1 with obind ?c _ = _ => destruct c as [[v s4]|] eqn:E4; [|discriminate] end. cbn [obind] in E1.
    injection E1 as E1. apply resolve_forces in E4. exists v.
    eapply steps_val; [|eapply steps_val; [|exact E4]].
    + eapply import_params_steps with (Lid := fun _ => True) (okf := fun _ => True) (attr_of := attr); [| | |exact E2].
      * apply okps_all.
      * apply Forall_forall. intros. apply okarg_all.
      * intros k a _. apply okarg_all.
    + eapply convert_steps with (Lid := fun _ => True) (okf := fun _ => True). exact E1.
  - eapply IH; eauto. replace (S i + j) with (i + S j) by lia. exact Ha.
Qed.
End Forced.

Section ForcedProgram.
Variable registry : string -> option schema.
Variable p : program.
Notation g := (pg_graph p).
Variable id : nat.
Variable sp : ispec.
Variable n : string.
Hypothesis Hlift : lifted_only registry p id sp.
Hypothesis Hkind : i_kind sp = IParam \/ i_kind sp = IBuffer.
Hypothesis Harg : i_arg sp = ITensor n.

Lemma prologue_inv : forall t sp0, input_tables p = Some t ->
  prologue p t (empty_st (length (map snd (t_user t)))) = Some sp0 -> lazy_inv id n sp0.
Proof.
  intros t sp0 Ht E. destruct (tables_src p _ _ _ Ht) as (S1 & S2 & S3 & S4). simpl in S1, S2, S3, S4.
  assert (Hs : forall ks k l b, from_spec p (pg_ins p) ks k l -> l = LTensor id b -> k = n).
  { intros ks k l b Hf ->. eapply (spec_entry registry p id sp n Hlift Hkind Harg); eauto. simpl. now rewrite Nat.eqb_refl. }
  unfold prologue in E.
  match type of E with obind ?c _ = _ => destruct c as [q1|] eqn:Q1; [|discriminate] end. cbn [obind] in E.
  match type of E with obind ?c _ = _ => destruct c as [q2|] eqn:Q2; [|discriminate] end. cbn [obind] in E.
  match type of E with obind ?c _ = _ => destruct c as [q3|] eqn:Q3; [|discriminate] end. cbn [obind] in E.
  match type of E with obind ?c _ = _ => destruct c as [q4|] eqn:Q4; [|discriminate] end. cbn [obind] in E.
  assert (Hc : forall l s s', lazy_inv id n s -> foldM import_constant l s = Some s' -> lazy_inv id n s').
  { intros l. apply (foldM_inv _ _ (lazy_inv id n)). intros s [k c] s' _ I E1. unfold import_constant in E1.
    simpl in E1. destruct (import_literal c s) as [[v s1]|] eqn:E2; [|discriminate]. cbn [obind] in E1.
    destruct (import_literal_shape _ _ _ _ E2) as (z & _ & _ & _ & Hv).
    eapply bind_inv; [exact E1| |discriminate]. unfold lazy_inv. rewrite Hv. exact I. }
  apply Hc in Q1; [|split; simpl; [constructor|tauto]]. apply Hc in Q2; auto.
  assert (I3 : lazy_inv id n q3).
  { revert Q3. apply (foldM_inv _ _ (lazy_inv id n)); auto. intros s [[k ty] v] s' _ I E1.
    unfold import_user_input in E1.
    destruct (sget (mutated_user_inputs (pg_outs p)) k); [|eapply bind_inv; [exact E1|auto|discriminate]].
    destruct (find_ph (pg_graph p) k) as [nd|]; [|discriminate]. cbn [obind] in E1.
    destruct (n_ty nd) as [tt|]; [|discriminate]. cbn [obind] in E1. unfold emit1, emit in E1.
    match type of E1 with obind ?c _ = _ => destruct c as [s3|] eqn:E2; [|discriminate] end.
    cbn [obind] in E1. injection E1 as <-. apply bind_inv with (id := id) (n := n) in E2; [exact E2|exact I|discriminate]. }
  assert (I4 : lazy_inv id n q4).
  { revert Q4. apply (foldM_inv _ _ (lazy_inv id n)); auto. intros s [k l] s' Hin I E1.
    eapply bind_inv; [exact E1|auto|]. intros bb [= ->]. simpl. f_equal.
    destruct (S3 _ _ Hin) as [[]|Hf]. eapply Hs; eauto. }
  revert E. apply (foldM_inv _ _ (lazy_inv id n)); auto. intros s [k [l [tg pr]]] s' Hin I E1.
  unfold import_buffer in E1.
  match type of E1 with obind ?c _ = _ => destruct c as [s2|] eqn:E2; [|discriminate] end.
  cbn [obind] in E1. injection E1 as <-. apply bind_inv with (id := id) (n := n) in E2; auto.
  - destruct pr; auto.
  - intros bb [= ->]. f_equal. destruct (S4 _ _ _ Hin) as [[]|Hf]. eapply Hs; eauto.
Qed.
Lemma import_nodes_mid : forall attr scal ns s ret s', 
  import_nodes attr scal registry g true ns [] s = Some (ret, s') ->
  forall nd, In nd ns -> exists sa args a r sb,
    import_node attr scal registry g true nd args sa = Some (a, r, sb) /\
    steps (fun _ => True) (fun _ => True) sb s'.
Proof.
  intros attr scal ns. generalize (@nil val) as args. induction ns as [|x r IH]; intros args s ret s' E nd Hi; [contradiction|].
  cbn [import_nodes] in E.
  match type of E with obind ?c _ = _ => destruct c as [[[args1 ret1] s1]|] eqn:E1; [|discriminate] end.
  cbn [obind] in E.
  match type of E with obind ?c _ = _ => destruct c as [[ret2 s2]|] eqn:E2; [|discriminate] end.
  cbn [obind] in E. injection E as <- <-. destruct Hi as [->|Hi].
  - exists s, args, args1, ret1, s1. split; auto. eapply import_nodes_trace; eauto.
  - eapply IH; eauto.
Qed.
(** A positional operand of an operator call is forced. *)
Lemma call_forces : forall s ret s', 
  import_nodes (g_attr g) (g_scalar g) registry g true (filter is_producer g) [] s = Some (ret, s') ->
  forall nd sch sch' i, In nd g -> n_op nd = Call (TConcrete sch) ->
  pick_schema (g_scalar g) registry sch (n_args nd) = Some sch' ->
  nth_error (n_args nd) i = Some (ANode n) -> i < length (s_params sch') ->
  exists v, vget (s_vals s') (n, 0) = Some (BVal v).
Proof.
  intros s ret s' E nd sch sch' i Hin Hop Hpick Hi Hlen.
  destruct (import_nodes_mid _ _ _ _ _ _ E nd) as (sa & args & a & r & sb & E1 & St).
  { apply filter_In. split; auto. unfold is_producer. now rewrite Hop. }
  unfold import_node in E1. rewrite Hop in E1.
  match type of E1 with obind ?c _ = _ => destruct c as [s1|] eqn:E2; [|discriminate] end.
  cbn [obind] in E1. injection E1 as <- <- <-. unfold import_call in E2.
  destruct (String.eqb (s_op sch) "torch.aten.as_strided"); [discriminate|].
  rewrite Hpick in E2. cbn [obind] in E2.
  match type of E2 with obind ?c _ = _ => destruct c as [tys|] eqn:E3; [|discriminate] end. cbn [obind] in E2.
  match type of E2 with obind ?c _ = _ => destruct c as [[vs s2]|] eqn:E4; [|discriminate] end. cbn [obind] in E2.
  destruct (nth_error (s_params sch') i) as [q|] eqn:Eq; [|apply nth_error_Some in Hlen; congruence].
  destruct (params_force n _ _ _ _ _ _ _ _ E4 i q Eq Hi) as [v Hv]. exists v.
  eapply steps_val; [exact St|].
  destruct (emit (KTorch (s_op sch')) vs tys s2) as [rs s3] eqn:Ee.
  eapply steps_val; [eapply bind_results_steps with (Lid := fun _ => True) (okf := fun _ => True); exact E2|].
  unfold emit in Ee. injection Ee as _ <-. exact Hv.
Qed.
Lemma return_forces : forall o us cs, user_outputs g o (pg_outs p) = Some (us, cs) ->
  forall cs' pos s vs s', return_values cs' pos us s = Some (vs, s') -> returned p n ->
  exists v, vget (s_vals s') (n, 0) = Some (BVal v).
Proof.
  intros o us cs U cs' pos s vs s' E (x & X1 & X2 & X3).
  assert (Hin : In (Some n) us).
  { clear - U X1 X2 X3. revert o us cs U. induction (pg_outs p) as [|y r IH]; intros o us cs U; [contradiction|].
    cbn [user_outputs] in U. destruct X1 as [->|X1].
    - rewrite X2 in U. destruct X3 as [X3|X3]; rewrite X3 in U;
      repeat match type of U with obind ?c _ = _ => destruct c as [[? ?]|] eqn:?; [|discriminate]; cbn [obind] in U
                 | obind ?c _ = _ => destruct c eqn:?; [|discriminate]; cbn [obind] in U end;
      injection U as <- <-; now left.
    - destruct (os_kind y); [|eauto..]. destruct (os_arg y); try discriminate;
      repeat match type of U with obind ?c _ = _ => destruct c as [[? ?]|] eqn:?; [|discriminate]; cbn [obind] in U
                 | obind ?c _ = _ => destruct c eqn:?; [|discriminate]; cbn [obind] in U end;
      injection U as <- <-; right; eauto. }
  clear U X1 X2 X3. revert pos s vs s' E. induction us as [|y r IH]; intros pos s vs s' E; [contradiction|].
  cbn [return_values] in E.
  match type of E with obind ?c _ = _ => destruct c as [[v sa]|] eqn:E1; [|discriminate] end. cbn [obind] in E.
  match type of E with obind ?c _ = _ => destruct c as [[vs' sb]|] eqn:E3; [|discriminate] end. cbn [obind] in E.
  injection E as _ <-. destruct Hin as [->|Hin]; [|eauto].
  exists v. eapply steps_val; [eapply return_steps; exact E3|]. eapply resolve_forces; eauto.
Qed.
End ForcedProgram.
