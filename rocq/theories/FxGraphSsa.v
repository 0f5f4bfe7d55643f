(** Structural invariants of the importer state: emitted blocks are in SSA form, and the
    argument-import functions leave the hook, multi-result and unpack tables alone. *)
From Coq Require Import String ZArith Bool Lia List.
From Verif Require Import Prelude FxGraphModel FxGraphSpec.
Import ListNotations.
Open Scope nat_scope.

Record wf (N : nat) (s : st) : Prop := {
  wf_defs : defs N (s_ops s) = seq 0 (s_next s);
  wf_uses : forall pre o post, s_ops s = pre ++ o :: post ->
     forall a, In a (o_args o) -> In a (defs N pre);
  wf_vals : forall k v, vget (s_vals s) k = Some (BVal v) -> vid v < s_next s;
  wf_unpack : forall r vs v, sget (s_unpack s) r = Some vs -> In v vs -> vid v < s_next s;
  wf_hooks : forall p m, sget (s_hooks s) p = Some (HOverwrite m) -> m < N
}.
Definition vok (s : st) (v : val) := vid v < s_next s.
Record grow (s s' : st) : Prop := {
  gr_ops : exists o, s_ops s' = s_ops s ++ o;
  gr_next : s_next s <= s_next s';
  gr_multi : s_multi s' = s_multi s;
  gr_hooks : s_hooks s' = s_hooks s;
  gr_unpack : s_unpack s' = s_unpack s;
  gr_keys : forall k, vget (s_vals s) k <> None -> vget (s_vals s') k <> None
}.
Lemma grow_refl : forall s, grow s s.
Proof. intros. split; auto. exists []. now rewrite app_nil_r. Qed.
Lemma grow_trans : forall a b c, grow a b -> grow b c -> grow a c.
Proof.
  intros a b c [] []. split; try congruence; try lia; auto.
  destruct gr_ops0 as [x Hx], gr_ops1 as [y Hy]. exists (x ++ y). rewrite Hy, Hx. now rewrite app_assoc.
Qed.
Lemma vok_grow : forall s s' v, grow s s' -> vok s v -> vok s' v.
Proof. unfold vok. intros s s' v [] H. lia. Qed.
Lemma voks_grow : forall s s' vs, grow s s' -> Forall (vok s) vs -> Forall (vok s') vs.
Proof. intros. eapply Forall_impl; [|eauto]. intros. eapply vok_grow; eauto. Qed.

Lemma mkvals_vids : forall tys n, map vid (mkvals n tys) = seq n (length tys).
Proof. induction tys; simpl; intros; auto. now rewrite IHtys. Qed.

Section Ssa.
Variable N : nat.

Lemma wf_next : forall s, wf N s -> N <= s_next s.
Proof.
  intros s []. assert (length (defs N (s_ops s)) = s_next s) by now rewrite wf_defs0, seq_length.
  unfold defs in H. rewrite app_length, seq_length in H. lia.
Qed.

Lemma emit_wf : forall s k args tys, wf N s -> Forall (vok s) args ->
  wf N (snd (emit k args tys s)) /\ grow s (snd (emit k args tys s)) /\
  Forall (vok (snd (emit k args tys s))) (fst (emit k args tys s)).
Proof.
  intros s k args tys Hw Ha. split; [|split].
  - destruct Hw. constructor; simpl.
    + unfold defs in *. rewrite flat_map_app, app_assoc, wf_defs0. simpl.
      rewrite app_nil_r, mkvals_vids, seq_app. reflexivity.
    + intros pre o post Heq a Hin.
      destruct post as [|q post] using rev_ind.
      * apply app_inj_tail in Heq. destruct Heq as [Heq1 Heq2]. subst pre o. simpl in Hin.
        rewrite wf_defs0. apply in_seq. apply in_map_iff in Hin. destruct Hin as [v [<- Hv]].
        rewrite Forall_forall in Ha. specialize (Ha _ Hv). unfold vok in Ha. lia.
      * rewrite app_comm_cons, app_assoc in Heq. apply app_inj_tail in Heq.
        destruct Heq as [Heq _]. eapply wf_uses0; eauto.
    + intros k0 v H. apply wf_vals0 in H. lia.
    + intros r vs v H1 H2. pose proof (wf_unpack0 _ _ _ H1 H2). lia.
    + auto.
  - split; simpl; auto; [eauto|lia].
  - simpl. apply Forall_forall. intros v Hv. unfold vok. simpl.
    assert (In (vid v) (seq (s_next s) (length tys))).
    { rewrite <- mkvals_vids. now apply in_map. }
    apply in_seq in H. lia.
Qed.

Lemma emit1_wf : forall s k args t v s', wf N s -> Forall (vok s) args ->
  emit1 k args t s = (v, s') -> wf N s' /\ grow s s' /\ vok s' v.
Proof.
  intros s k args t v s' Hw Ha He. destruct (emit_wf s k args [t] Hw Ha) as (H1 & H2 & H3).
  unfold emit1 in He. inversion He; subst. split; auto. split; auto.
  simpl in H3. inversion H3; auto.
Qed.

Definition sound (f : st -> option (val * st)) : Prop := forall s v s',
  wf N s -> f s = Some (v, s') -> wf N s' /\ grow s s' /\ vok s' v.
Definition sounds (f : st -> option (list val * st)) : Prop := forall s vs s',
  wf N s -> f s = Some (vs, s') -> wf N s' /\ grow s s' /\ Forall (vok s') vs.
Definition sound0 (f : st -> option st) : Prop := forall s s',
  wf N s -> f s = Some s' -> wf N s' /\ grow s s'.

Lemma import_const_wf : forall l, sound (import_const l).
Proof.
  intros l s v s' Hw H.
  assert (G : forall k t, Some (emit1 k [] t s) = Some (v, s') -> wf N s' /\ grow s s' /\ vok s' v).
  { intros k t E. assert (E' : emit1 k [] t s = (v, s')) by congruence.
    eapply emit1_wf; eauto. }
  destruct l as [| | | | | |[|]|]; try discriminate; eapply G; exact H.
Qed.
Lemma import_literal_wf : forall l, sound (import_literal l).
Proof.
  intros l s v s' Hw H.
  destruct l as [| | | | |id [|]| |]; cbn [import_literal] in H;
    try (eapply import_const_wf; eauto; fail).
  destruct (emit1 (KConstU8 id) [] TyVTensor s) as [c s1] eqn:E1.
  destruct (emit1 (KConst (LInt bool_code)) [] TyInt s1) as [d s2] eqn:E2.
  destruct (emit1 (KTorch convert_elt) [c; d] TyVTensor s2) as [v3 s3] eqn:E3.
  injection H as <- <-.
  destruct (emit1_wf _ _ _ _ _ _ Hw (Forall_nil _) E1) as (W1 & G1 & V1).
  destruct (emit1_wf _ _ _ _ _ _ W1 (Forall_nil _) E2) as (W2 & G2 & V2).
  destruct (emit1_wf _ _ [c; d] _ _ _ W2 ltac:(eauto using vok_grow) E3) as (W3 & G3 & V3).
  split; auto. split; auto. eauto using grow_trans.
Qed.

Lemma vget_vset' : forall l k b k', vget (vset l k b) k' =
  if keyb k k' then match vget l k with Some _ => Some b | None => None end else vget l k'.
Proof.
  assert (R : forall k, keyb k k = true).
  { intros [a b]. unfold keyb. simpl. now rewrite String.eqb_refl, Nat.eqb_refl. }
  assert (E : forall a b, keyb a b = true -> a = b).
  { intros [a b] [c d]. unfold keyb. simpl. rewrite andb_true_iff, String.eqb_eq, Nat.eqb_eq.
    intros [-> ->]. reflexivity. }
  induction l as [|[k0 b0] r IH]; intros k b k'; simpl.
  - now destruct (keyb k k').
  - destruct (keyb k0 k) eqn:E1.
    + apply E in E1. subst k0. simpl. destruct (keyb k k') eqn:E2; auto.
    + simpl. destruct (keyb k0 k') eqn:E2.
      * apply E in E2. subst k0. destruct (keyb k k') eqn:E3; auto.
        apply E in E3. subst. rewrite R in E1. discriminate.
      * apply IH.
Qed.

Lemma set_vals_wf : forall s l, wf N s ->
  (forall k v, vget l k = Some (BVal v) -> vid v < s_next s) -> wf N (set_vals l s).
Proof. intros s l [] H. constructor; simpl; auto. Qed.

Lemma resolve_wf : forall n i, sound (resolve n i).
Proof.
  intros n i s v s' Hw H. unfold resolve in H.
  destruct (vget (s_vals s) (n, i)) as [[v0|l|]|] eqn:E; try discriminate.
  - injection H as <- <-. split; auto. split; [apply grow_refl|]. eapply wf_vals; eauto.
  - destruct (import_literal l s) as [[v1 s1]|] eqn:E1; [|discriminate]. cbn [obind] in H.
    injection H as <- <-. destruct (import_literal_wf _ _ _ _ Hw E1) as (W1 & G1 & V1).
    split; [|split].
    + apply set_vals_wf; auto. intros k w. rewrite vget_vset'.
      destruct (keyb (n, i) k).
      * destruct (vget (s_vals s1) (n, i)); intros [= <-]; auto.
      * apply W1.
    + destruct G1. split; simpl; auto. intros k Hk. apply gr_keys0 in Hk.
      rewrite vget_vset'. destruct (keyb (n, i) k) eqn:Ek; auto.
      assert (vget (s_vals s1) (n, i) <> None) by (apply gr_keys0; congruence).
      destruct (vget (s_vals s1) (n, i)); congruence.
    + exact V1.
Qed.

Lemma convert_wf : forall v e s v' s', wf N s -> vok s v -> convert_type v e s = (v', s') ->
  wf N s' /\ grow s s' /\ vok s' v'.
Proof.
  intros v e s v' s' Hw Hv H. unfold convert_type in H.
  destruct (vty v); try (injection H as <- <-; split; auto; split; auto using grow_refl; fail).
  destruct e as [[]|]; try (injection H as <- <-; split; auto; split; auto using grow_refl; fail);
  (eapply emit1_wf; [exact Hw| |exact H]; auto).
Qed.

Lemma bind_wf : forall n i v s s', wf N s -> vok s v -> bind n i (BVal v) s = Some s' ->
  wf N s' /\ grow s s'.
Proof.
  intros n i v s s' Hw Hv H. unfold bind in H.
  destruct (vget (s_vals s) (n, i)) eqn:E; [discriminate|].
  set (s1 := set_vals (((n, i), BVal v) :: s_vals s) s) in *.
  assert (W1 : wf N s1).
  { apply set_vals_wf; auto. intros k w. simpl. destruct (keyb (n, i) k); [intros [= <-]; auto|].
    apply Hw. }
  assert (G1 : grow s s1).
  { split; simpl; auto; [exists []; now rewrite app_nil_r|].
    intros k Hk. destruct (keyb (n, i) k); congruence. }
  destruct (sget (s_hooks s1) n) as [[m|b]|] eqn:Eh; simpl in H; injection H as <-; auto.
  - assert (Hm : vok s1 (V m TyTensor)).
    { unfold vok. simpl. pose proof (wf_hooks _ _ W1 _ _ Eh). pose proof (wf_next _ W1).
      simpl in H0. lia. }
    destruct (emit_wf s1 KOverwrite [v; V m TyTensor] [] W1) as (W2 & G2 & _); [auto|].
    split; [exact W2|]. eapply grow_trans; eauto.
  - destruct (emit_wf s1 (KStore b) [v] [] W1) as (W2 & G2 & _); [auto|].
    split; [exact W2|]. eapply grow_trans; eauto.
Qed.

Variable attr_of : string -> option (option lit).
Variable scal : string -> bool.
Variable registry : string -> option schema.

Lemma bind_attr_wf : forall n obj, sound0 (bind_attr n obj).
Proof.
  intros n [l|] s s' Hw H; [|discriminate]. cbn [bind_attr] in H.
  destruct (import_literal l s) as [[v s1]|] eqn:E; [|discriminate]. cbn [obind] in H.
  destruct (import_literal_wf _ _ _ _ Hw E) as (W1 & G1 & V1).
  destruct (bind_wf _ _ _ _ _ W1 V1 H) as (W2 & G2). eauto using grow_trans.
Qed.

Lemma import_elem_wf : forall t o a, sound (import_elem attr_of t o a).
Proof.
  intros t o a s v s' Hw H. destruct a as [n|l|l|l]; cbn [import_elem] in H; try discriminate.
  - destruct (memb n (s_multi s)); [discriminate|].
    match type of H with obind ?c _ = _ => destruct c as [s1|] eqn:E1; [|discriminate] end.
    cbn [obind] in H.
    assert (G : wf N s1 /\ grow s s1).
    { destruct (attr_of n); [|injection E1 as <-; auto using grow_refl].
      destruct (vget (s_vals s) (n, 0)); [injection E1 as <-; auto using grow_refl|].
      eapply bind_attr_wf; eauto. }
    destruct G as [W1 G1].
    destruct (resolve n 0 s1) as [[v2 s2]|] eqn:E2; [|discriminate]. cbn [obind] in H.
    destruct (node_elem_ok t v2); [|discriminate]. cbn [obind guard] in H.
    injection H as -> ->. destruct (resolve_wf _ _ _ _ _ W1 E2) as (W2 & G2 & V2).
    eauto using grow_trans.
  - destruct (lit_elem_ok t o l); [|discriminate]. cbn [obind guard] in H.
    eapply import_const_wf; eauto.
Qed.
Lemma import_elems_wf : forall t o l, sounds (import_elems attr_of t o l).
Proof.
  intros t o l. induction l as [|a r IH]; intros s vs s' Hw H; cbn [import_elems] in H.
  - injection H as <- <-. auto using grow_refl.
  - destruct (import_elem attr_of t o a s) as [[v s1]|] eqn:E1; [|discriminate]. cbn [obind] in H.
    destruct (import_elems attr_of t o r s1) as [[vs' s2]|] eqn:E2; [|discriminate].
    cbn [obind] in H. injection H as <- <-.
    destruct (import_elem_wf _ _ _ _ _ _ Hw E1) as (W1 & G1 & V1).
    destruct (IH _ _ _ W1 E2) as (W2 & G2 & V2).
    split; auto. split; [eapply grow_trans; eauto|]. constructor; auto. eapply vok_grow; eauto.
Qed.
Lemma import_list_wf : forall e l, sound (import_list attr_of e l).
Proof.
  intros e l s v s' Hw H. unfold import_list in H.
  destruct (elem_type e) as [[t o]|]; [|discriminate]. cbn [obind] in H.
  destruct (import_elems attr_of t o l s) as [[vs s1]|] eqn:E1; [|discriminate].
  cbn [obind] in H. destruct (import_elems_wf _ _ _ _ _ _ Hw E1) as (W1 & G1 & V1).
  match type of H with Some ?c = _ => assert (H' : c = (v, s')) by congruence end.
  destruct (emit1_wf _ _ _ _ _ _ W1 V1 H') as (W2 & G2 & V2). eauto using grow_trans.
Qed.
Lemma import_scalar_wf : forall l, sound (import_scalar_as_tensor l).
Proof.
  intros l s v s' Hw H. unfold import_scalar_as_tensor in H.
  destruct l; try discriminate;
  match type of H with obind ?c _ = _ => destruct c as [[c0 s0]|] eqn:E1; [|discriminate] end;
  cbn [obind] in H; destruct (import_const_wf _ _ _ _ Hw E1) as (W1 & G1 & V1);
  match type of H with Some ?c = _ => assert (H' : c = (v, s')) by congruence end;
  (destruct (emit1_wf _ _ [c0] _ _ _ W1 ltac:(auto) H') as (W2 & G2 & V2);
   eauto using grow_trans).
Qed.
Lemma conv_step : forall f, sound f -> forall s v s' e, wf N s ->
  (do (v1, s1) <- f s; Some (convert_type v1 e s1)) = Some (v, s') ->
  wf N s' /\ grow s s' /\ vok s' v.
Proof.
  intros f Hf s v s' e Hw H. destruct (f s) as [[v1 s1]|] eqn:E; [|discriminate].
  cbn [obind] in H. destruct (Hf _ _ _ Hw E) as (W1 & G1 & V1).
  assert (H' : convert_type v1 e s1 = (v, s')) by congruence.
  destruct (convert_wf _ _ _ _ _ W1 V1 H') as (W2 & G2 & V2). eauto using grow_trans.
Qed.
Lemma import_arg_wf : forall e a, sound (import_arg attr_of e a).
Proof.
  intros e a s v s' Hw H. destruct a as [n|l|l|l]; cbn [import_arg] in H; try discriminate.
  - destruct (memb n (s_multi s)); [discriminate|].
    match type of H with obind ?c _ = _ => destruct c as [s1|] eqn:E1; [|discriminate] end.
    cbn [obind] in H.
    assert (G : wf N s1 /\ grow s s1).
    { destruct (attr_of n); [|injection E1 as <-; auto using grow_refl].
      eapply bind_attr_wf; eauto. }
    destruct G as [W1 G1].
    destruct (conv_step (resolve n 0) (resolve_wf n 0) _ _ _ _ W1 H) as (W2 & G2 & V2).
    eauto using grow_trans.
  - destruct e as [[]|]; try (eapply conv_step; [apply import_literal_wf|exact Hw|exact H]).
    destruct l; try (eapply conv_step; [apply import_scalar_wf|exact Hw|exact H]).
    eapply conv_step; [apply import_literal_wf|exact Hw|exact H].
  - eapply conv_step; [apply import_list_wf|exact Hw|exact H].
Qed.
Lemma import_default_wf : forall e d, sound (import_default attr_of e d).
Proof.
  intros e [l|l] s v s' Hw H; cbn [import_default] in H.
  - eapply import_const_wf; eauto.
  - eapply import_list_wf; eauto.
Qed.
Lemma import_params_wf : forall ps i args kw, sounds (import_params attr_of i ps args kw).
Proof.
  induction ps as [|p r IH]; intros i args kw s vs s' Hw H; cbn [import_params] in H.
  - injection H as <- <-. auto using grow_refl.
  - match type of H with obind ?c _ = _ => destruct c as [[v s1]|] eqn:E1; [|discriminate] end.
    cbn [obind] in H.
    assert (G : wf N s1 /\ grow s s1 /\ vok s1 v).
    { destruct (nth_error args i); [eapply import_arg_wf; eauto|].
      destruct (sget kw (p_name p)); [eapply import_arg_wf; eauto|].
      eapply import_default_wf; eauto. }
    destruct G as (W1 & G1 & V1).
    destruct (import_params attr_of (S i) r args kw s1) as [[vs' s2]|] eqn:E2; [|discriminate].
    cbn [obind] in H. injection H as <- <-.
    destruct (IH _ _ _ _ _ _ W1 E2) as (W2 & G2 & V2).
    split; auto. split; [eapply grow_trans; eauto|]. constructor; auto. eapply vok_grow; eauto.
Qed.
Lemma import_named_wf : forall ps kw, sounds (import_named attr_of ps kw).
Proof.
  induction ps as [|p r IH]; intros kw s vs s' Hw H; cbn [import_named] in H.
  - injection H as <- <-. auto using grow_refl.
  - destruct (sget kw (p_name p)) as [a|]; [|discriminate]. cbn [obind] in H.
    destruct (import_arg attr_of (Some (p_type p)) a s) as [[v s1]|] eqn:E1; [|discriminate].
    cbn [obind] in H. destruct (import_named attr_of r kw s1) as [[vs' s2]|] eqn:E2; [|discriminate].
    cbn [obind] in H. injection H as <- <-.
    destruct (import_arg_wf _ _ _ _ _ Hw E1) as (W1 & G1 & V1).
    destruct (IH _ _ _ _ W1 E2) as (W2 & G2 & V2).
    split; auto. split; [eapply grow_trans; eauto|]. constructor; auto. eapply vok_grow; eauto.
Qed.
Lemma bind_results_wf : forall vs n i s s', wf N s -> Forall (vok s) vs ->
  bind_results n i vs s = Some s' -> wf N s' /\ grow s s'.
Proof.
  induction vs as [|v r IH]; intros n i s s' Hw Hv H; cbn [bind_results] in H.
  - injection H as <-. auto using grow_refl.
  - destruct (bind n i (BVal v) s) as [s1|] eqn:E1; [|discriminate]. cbn [obind] in H.
    inversion Hv as [|? ? V1 V2]; subst. destruct (bind_wf _ _ _ _ _ Hw V1 E1) as (W1 & G1).
    destruct (IH _ _ _ _ W1 (voks_grow _ _ _ G1 V2) H) as (W2 & G2). eauto using grow_trans.
Qed.
Lemma bind_none_wf : forall n i s s', wf N s -> bind n i BNone s = Some s' ->
  wf N s' /\ grow s s'.
Proof.
  intros n i s s' Hw H. unfold bind in H.
  destruct (vget (s_vals s) (n, i)) eqn:E; [discriminate|].
  match type of H with match ?c with _ => _ end = _ => destruct c as [[]|] end; try discriminate.
  injection H as <-. split.
  - apply set_vals_wf; auto. intros k w. simpl. destruct (keyb (n, i) k); [discriminate|]. apply Hw.
  - split; simpl; auto; [exists []; now rewrite app_nil_r|].
    intros k Hk. destruct (keyb (n, i) k); congruence.
Qed.
Lemma set_multi_wf : forall s m, wf N s -> wf N (set_multi m s).
Proof. intros s m []. constructor; auto. Qed.

(** What a whole node may change. *)
Definition keeps (n : string) (s s' : st) : Prop :=
  wf N s' /\ (exists o, s_ops s' = s_ops s ++ o) /\ s_hooks s' = s_hooks s /\
  (forall m, In m (s_multi s') -> m = n \/ In m (s_multi s)).

Lemma import_call_wf : forall nd args kw sch s s', wf N s ->
  import_call attr_of scal registry nd args kw sch s = Some s' -> keeps (n_name nd) s s'.
Proof.
  intros nd args kw sch s s' Hw H. unfold import_call in H.
  destruct (String.eqb (s_op sch) "torch.aten.as_strided"); [discriminate|].
  destruct (pick_schema scal registry sch args) as [sch'|]; [|discriminate]. cbn [obind] in H.
  destruct (result_types nd sch') as [tys|]; [|discriminate]. cbn [obind] in H.
  set (s0 := if (1 <? length tys) then set_multi (n_name nd :: s_multi s) s else s) in *.
  assert (S0 : wf N s0 /\ s_ops s0 = s_ops s /\ s_hooks s0 = s_hooks s /\
     (forall m, In m (s_multi s0) -> m = n_name nd \/ In m (s_multi s))).
  { unfold s0. destruct (1 <? length tys); simpl; repeat split; auto using set_multi_wf; try apply Hw.
    intros m [->|]; auto. }
  destruct S0 as (W0 & O0 & H0 & M0).
  destruct (import_params attr_of 0 (s_params sch') args kw s0) as [[vs s1]|] eqn:E1; [|discriminate].
  cbn [obind] in H. destruct (import_params_wf _ _ _ _ _ _ _ W0 E1) as (W1 & G1 & V1).
  destruct (emit_wf s1 (KTorch (s_op sch')) vs tys W1 V1) as (W2 & G2 & V2).
  destruct (emit (KTorch (s_op sch')) vs tys s1) as [rs s2]. simpl in *.
  destruct (bind_results_wf _ _ _ _ _ W2 V2 H) as (W3 & G3).
  pose proof (grow_trans _ _ _ G1 (grow_trans _ _ _ G2 G3)) as G.
  split; [exact W3|]. destruct G. rewrite <- O0, gr_multi0, <- H0. auto.
Qed.

Lemma import_auto_wf : forall nd sch s s', wf N s ->
  import_auto attr_of nd sch s = Some s' -> keeps (n_name nd) s s'.
Proof.
  intros nd sch s s' Hw H. unfold import_auto in H.
  destruct (n_tys nd) as [tys|]; [|discriminate]. cbn [obind] in H.
  match type of H with obind ?c _ = _ => destruct c as [irtys|]; [|discriminate] end.
  cbn [obind] in H.
  destruct (import_named attr_of (s_params sch) (n_kwargs nd) s) as [[vs s1]|] eqn:E1; [|discriminate].
  cbn [obind] in H. destruct (import_named_wf _ _ _ _ _ Hw E1) as (W1 & G1 & V1).
  destruct (emit_wf s1 (KTorch (s_op sch)) vs irtys W1 V1) as (W2 & G2 & V2).
  destruct (emit (KTorch (s_op sch)) vs irtys s1) as [rs s2]. simpl in W2, G2, V2.
  set (s3 := set_multi (n_name nd :: s_multi s2) s2) in *.
  assert (W3 : wf N s3) by now apply set_multi_wf.
  assert (V3 : Forall (vok s3) rs) by exact V2.
  pose proof (grow_trans _ _ _ G1 G2) as G.
  assert (K : forall s4, wf N s4 -> grow s3 s4 -> keeps (n_name nd) s s4).
  { intros s4 W4 G4. split; auto. destruct G, G4. simpl in *.
    rewrite gr_hooks1, gr_multi1, gr_multi0. repeat split; auto.
    - destruct gr_ops0 as [x Hx], gr_ops1 as [y Hy]. exists (x ++ y).
      rewrite Hy, Hx. now rewrite app_assoc.
    - intros m [->|]; auto. }
  destruct (Nat.eqb (s_returns sch) 0).
  - destruct (bind (n_name nd) 0 BNone s3) as [s4|] eqn:E4; [|discriminate]. cbn [obind] in H.
    destruct (bind_none_wf _ _ _ _ W3 E4) as (W4 & G4).
    destruct (bind_results_wf _ _ _ _ _ W4 (voks_grow _ _ _ G4 V3) H) as (W5 & G5).
    apply K; auto. eapply grow_trans; eauto.
  - destruct (bind_results_wf _ _ _ _ _ W3 V3 H) as (W5 & G5). now apply K.
Qed.

Lemma grow_keeps : forall n s s', wf N s' -> grow s s' -> keeps n s s'.
Proof. intros n s s' Hw []. split; auto. repeat split; auto. rewrite gr_multi0. auto. Qed.

Lemma set_unpack_wf : forall s r vs, wf N s -> Forall (vok s) vs ->
  wf N (set_unpack ((r, vs) :: s_unpack s) s).
Proof.
  intros s r vs [] Hv. constructor; simpl; auto. intros r0 vs0 v.
  destruct (String.eqb r r0); [|eauto]. intros [= <-] Hin.
  rewrite Forall_forall in Hv. now apply Hv.
Qed.

Lemma pyidx_In : forall {A} (l : list A) i x, pyidx l i = Some x -> In x l.
Proof.
  unfold pyidx. intros A l i x.
  repeat match goal with |- context [if ?c then _ else _] => destruct c end; try discriminate;
  apply nth_error_In.
Qed.

Lemma import_getitem_wf : forall g nd s s', wf N s ->
  import_getitem g nd s = Some s' -> keeps (n_name nd) s s'.
Proof.
  intros g nd s s' Hw H. unfold import_getitem in H.
  destruct (n_args nd) as [|[r| | |] [|[|[| |i| | | | |]| |] [|]]]; try discriminate.
  destruct (memb r (s_multi s)).
  - destruct (i <? 0)%Z; [discriminate|].
    destruct (resolve r (Z.to_nat i) s) as [[v s1]|] eqn:E1; [|discriminate]. cbn [obind] in H.
    destruct (resolve_wf _ _ _ _ _ Hw E1) as (W1 & G1 & V1).
    destruct (bind_wf _ _ _ _ _ W1 V1 H) as (W2 & G2).
    apply grow_keeps; eauto using grow_trans.
  - match type of H with obind ?c _ = _ => destruct c as [s1|] eqn:E1; [|discriminate] end.
    cbn [obind] in H.
    assert (G : keeps (n_name nd) s s1).
    { destruct (sget (s_unpack s) r).
      { injection E1 as <-. apply grow_keeps; auto using grow_refl. }
      destruct (resolve r 0 s) as [[v s2]|] eqn:E2; [|discriminate]. cbn [obind] in E1.
      destruct (resolve_wf _ _ _ _ _ Hw E2) as (W2 & G2 & V2).
      destruct (is_list_ty (vty v)).
      - destruct (obind (find_node g r) n_tys) as [tys|]; [|discriminate]. cbn [obind] in E1.
        destruct (emit_wf s2 KListUnpack [v] tys W2) as (W3 & G3 & V3); [auto|].
        destruct (emit KListUnpack [v] tys s2) as [rs s3]. simpl in W3, G3, V3.
        injection E1 as <-. split; [now apply set_unpack_wf|].
        destruct (grow_trans _ _ _ G2 G3). simpl. repeat split; auto. rewrite gr_multi0. auto.
      - injection E1 as <-. apply grow_keeps; auto. }
    destruct G as (W1 & (o1 & O1) & H1 & M1).
    destruct (sget (s_unpack s1) r) as [vs|] eqn:E2; [|discriminate]. cbn [obind] in H.
    destruct (pyidx vs i) as [v|] eqn:E3; [|discriminate]. cbn [obind] in H.
    assert (V1 : vok s1 v). { eapply wf_unpack; eauto. eapply pyidx_In; eauto. }
    destruct (bind_wf _ _ _ _ _ W1 V1 H) as (W2 & []).
    split; [exact W2|]. rewrite gr_hooks0, gr_multi0. repeat split; auto.
    destruct gr_ops0 as [x ->]. rewrite O1. exists (o1 ++ x). now rewrite app_assoc.
Qed.

Lemma import_outs_wf : forall l, sounds (import_outs attr_of l).
Proof.
  induction l as [|a r IH]; intros s vs s' Hw H; cbn [import_outs] in H.
  - injection H as <- <-. auto using grow_refl.
  - destruct (import_arg attr_of None a s) as [[v s1]|] eqn:E1; [|discriminate].
    cbn [obind] in H. destruct (import_outs attr_of r s1) as [[vs' s2]|] eqn:E2; [|discriminate].
    cbn [obind] in H. injection H as <- <-.
    destruct (import_arg_wf _ _ _ _ _ Hw E1) as (W1 & G1 & V1).
    destruct (IH _ _ _ W1 E2) as (W2 & G2 & V2).
    split; auto. split; [eapply grow_trans; eauto|]. constructor; auto. eapply vok_grow; eauto.
Qed.

Lemma keeps_refl : forall n s, wf N s -> keeps n s s.
Proof. intros. apply grow_keeps; auto using grow_refl. Qed.

Lemma ops_next : forall s s', wf N s -> wf N s' -> (exists o, s_ops s' = s_ops s ++ o) ->
  s_next s <= s_next s'.
Proof.
  intros s s' [D _ _ _ _] [D' _ _ _ _] [o Ho].
  assert (L : length (defs N (s_ops s)) <= length (defs N (s_ops s'))).
  { unfold defs. rewrite Ho, flat_map_app, !app_length. lia. }
  rewrite D, D', !seq_length in L. exact L.
Qed.

Lemma import_node_wf : forall g skip n args s args' ret s', wf N s -> Forall (vok s) args ->
  import_node attr_of scal registry g skip n args s = Some (args', ret, s') ->
  keeps (n_name n) s s' /\ Forall (vok s') args' /\
  (forall vs, ret = Some vs -> Forall (vok s') vs).
Proof.
  intros g skip n args s args' ret s' Hw Ha H. unfold import_node in H.
  assert (K : forall s1, keeps (n_name n) s s1 -> Some (args, None, s1) = Some (args', ret, s') ->
    keeps (n_name n) s s' /\ Forall (vok s') args' /\ (forall vs, ret = Some vs -> Forall (vok s') vs)).
  { intros s1 Hk [= <- <- <-]. split; auto. split; [|discriminate].
    destruct Hk as (W1 & O1 & _). eapply Forall_impl; [|exact Ha]. unfold vok.
    intros v Hv. pose proof (ops_next _ _ Hw W1 O1). lia. }
  destruct (n_op n) as [|o|[]| |].
  - destruct skip; [eapply K; eauto using keeps_refl|].
    destruct args as [|v r]; [discriminate|].
    destruct (bind (n_name n) 0 (BVal v) s) as [s1|] eqn:E1; [|discriminate]. cbn [obind] in H.
    injection H as <- <- <-. inversion Ha as [|? ? V1 V2]; subst.
    destruct (bind_wf _ _ _ _ _ Hw V1 E1) as (W1 & G1).
    split; [now apply grow_keeps|]. split; [eapply voks_grow; eauto|discriminate].
  - eapply K; eauto using keeps_refl.
  - destruct (import_getitem g n s) as [s1|] eqn:E1; [|discriminate].
    eapply K; [eapply import_getitem_wf; eauto|exact H].
  - destruct (canonicalize registry n s0) as [[[[a kw] sch']|]|]; [| |discriminate]; cbn [obind] in H.
    + destruct (import_call attr_of scal registry n a kw sch' s) as [s1|] eqn:E1; [|discriminate].
      eapply K; [eapply import_call_wf; eauto|exact H].
    + eapply K; eauto using keeps_refl.
  - match type of H with obind ?c _ = _ => destruct c as [s1|] eqn:E1; [|discriminate] end.
    eapply K; [eapply import_call_wf; eauto|exact H].
  - match type of H with obind ?c _ = _ => destruct c as [s1|] eqn:E1; [|discriminate] end.
    eapply K; [eapply import_auto_wf; eauto|exact H].
  - discriminate.
  - destruct skip; [eapply K; eauto using keeps_refl|].
    destruct (nth_error (n_args n) 0) as [a|]; [|discriminate]. cbn [obind] in H.
    match type of H with obind ?c _ = _ => destruct c as [[vs s1]|] eqn:E1; [|discriminate] end.
    cbn [obind] in H. injection H as <- <- <-.
    destruct (import_outs_wf _ _ _ _ Hw E1) as (W1 & G1 & V1).
    split; [now apply grow_keeps|]. split; [eapply voks_grow; eauto|]. now intros ? [= <-].
  - eapply K; eauto using keeps_refl.
Qed.

Lemma import_nodes_wf : forall ns g skip args s ret s', wf N s -> Forall (vok s) args ->
  import_nodes attr_of scal registry g skip ns args s = Some (ret, s') ->
  wf N s' /\ (exists o, s_ops s' = s_ops s ++ o) /\
  (forall vs, ret = Some vs -> Forall (vok s') vs).
Proof.
  induction ns as [|n r IH]; intros g skip args s ret s' Hw Ha H; cbn [import_nodes] in H.
  - injection H as <- <-. split; auto. split; [exists []; now rewrite app_nil_r|discriminate].
  - match type of H with obind ?c _ = _ => destruct c as [[[args1 ret1] s1]|] eqn:E1; [|discriminate] end.
    cbn [obind] in H.
    match type of H with obind ?c _ = _ => destruct c as [[ret2 s2]|] eqn:E2; [|discriminate] end.
    cbn [obind] in H. injection H as <- <-.
    destruct (import_node_wf _ _ _ _ _ _ _ _ Hw Ha E1) as ((W1 & (o1 & O1) & _) & A1 & R1).
    destruct (IH _ _ _ _ _ _ W1 A1 E2) as (W2 & (o2 & O2) & R2).
    split; auto. split.
    + exists (o1 ++ o2). rewrite O2, O1. now rewrite app_assoc.
    + intros vs Hvs. destruct ret2; [auto|]. specialize (R1 _ Hvs).
      eapply Forall_impl; [|exact R1]. unfold vok. intros v Hv.
      pose proof (ops_next _ _ W1 W2 (ex_intro _ _ O2)). lia.
Qed.

Lemma wf_ssa : forall s, wf N s -> ssa N (s_ops s).
Proof. intros s []. split; auto. rewrite wf_defs0. apply seq_NoDup. Qed.

End Ssa.
