(** Every import function acts on the importer state by a few primitive steps; counting
    arguments (lazy loads, unpackings) are then inductions over steps. *)
From Coq Require Import String ZArith Bool Lia List.
From Verif Require Import Prelude FxGraphModel.
Import ListNotations.
Open Scope nat_scope.

Section Trace.
Variable Lid : nat -> Prop.          (* tensor objects that may be loaded directly *)
Variable okf : string -> Prop.       (* nodes that may be resolved *)
Variable attr_of : string -> option (option lit).
Variable scal : string -> bool.
Variable registry : string -> option schema.

Definition okk (k : opk) : Prop :=
  match k with
  | KConst (LTensor id _) | KConstU8 id => Lid id
  | KListUnpack => False
  | _ => True
  end.
Definition oklit (l : lit) : Prop := match l with LTensor id _ => Lid id | _ => True end.
Definition oknode (n : string) : Prop :=
  okf n /\ (forall l, attr_of n = Some (Some l) -> oklit l).
Inductive okarg : arg -> Prop :=
| ok_node : forall n, oknode n -> okarg (ANode n)
| ok_lit : forall l, oklit l -> okarg (ALit l)
| ok_list : forall l, Forall okarg l -> okarg (AList l)
| ok_tuple : forall l, Forall okarg l -> okarg (ATuple l).
Definition okdflt (d : dflt) : Prop :=
  match d with DLit l => oklit l | DList l => Forall oklit l end.

Inductive tstep : st -> st -> Prop :=
| t_emit : forall s k args tys, okk k -> tstep s (snd (emit k args tys s))
| t_bind : forall s n i b, vget (s_vals s) (n, i) = None -> (forall l, b <> BLazy l) ->
    tstep s (set_vals (((n, i), b) :: s_vals s) s)
| t_force : forall s n i l v s1, okf n -> vget (s_vals s) (n, i) = Some (BLazy l) ->
    import_literal l s = Some (v, s1) ->
    tstep s (set_vals (vset (s_vals s1) (n, i) (BVal v)) s1)
| t_multi : forall s n, tstep s (set_multi (n :: s_multi s) s)
| t_unpack : forall s r v tys, sget (s_unpack s) r = None ->
    tstep s (set_unpack ((r, fst (emit KListUnpack [v] tys s)) :: s_unpack s)
               (snd (emit KListUnpack [v] tys s))).
Inductive steps : st -> st -> Prop :=
| st_refl : forall s, steps s s
| st_step : forall a b c, tstep a b -> steps b c -> steps a c.
Lemma steps1 : forall a b, tstep a b -> steps a b.
Proof. intros. eapply st_step; eauto. constructor. Qed.
Lemma steps_trans : forall a b c, steps a b -> steps b c -> steps a c.
Proof. induction 1; auto. intros. eapply st_step; eauto. Qed.

Lemma emit1_steps : forall k args t s v s', okk k -> emit1 k args t s = (v, s') -> steps s s'.
Proof. unfold emit1. intros k args t s v s' Hk H. inversion H; subst. apply steps1. now apply (t_emit s k args [t]). Qed.

Ltac inv1 := match goal with
  | H : obind ?c _ = Some _ |- _ => destruct c as [?|] eqn:?; [|discriminate]; cbn [obind guard] in H
  end.

Lemma import_const_steps : forall l s v s', oklit l -> import_const l s = Some (v, s') -> steps s s'.
Proof.
  intros l s v s' Hl H.
  assert (G : forall k t, okk k -> Some (emit1 k [] t s) = Some (v, s') -> steps s s').
  { intros k t Hk E. assert (E' : emit1 k [] t s = (v, s')) by congruence.
    eapply emit1_steps; eauto. }
  destruct l as [| | | | | |[|]|]; try discriminate; (eapply G; [|exact H]); simpl; auto.
Qed.
Lemma import_literal_steps : forall l s v s', oklit l -> import_literal l s = Some (v, s') -> steps s s'.
Proof.
  intros l s v s' Hl H.
  destruct l as [| | | | |id [|]| |]; cbn [import_literal] in H;
    try (eapply import_const_steps; eauto; fail).
  destruct (emit1 (KConstU8 id) [] TyVTensor s) as [c s1] eqn:E1.
  destruct (emit1 (KConst (LInt bool_code)) [] TyInt s1) as [d s2] eqn:E2.
  destruct (emit1 (KTorch convert_elt) [c; d] TyVTensor s2) as [v3 s3] eqn:E3.
  injection H as <- <-.
  apply emit1_steps in E1; [|exact Hl]. apply emit1_steps in E2; [|exact I].
  apply emit1_steps in E3; [|exact I]. eauto using steps_trans.
Qed.
Lemma resolve_steps : forall n i s v s', okf n -> resolve n i s = Some (v, s') -> steps s s'.
Proof.
  intros n i s v s' Hn H. unfold resolve in H.
  destruct (vget (s_vals s) (n, i)) as [[v0|l|]|] eqn:E; try discriminate.
  - injection H as <- <-. constructor.
  - destruct (import_literal l s) as [[v1 s1]|] eqn:E1; [|discriminate]. cbn [obind] in H.
    injection H as <- <-. apply steps1. econstructor; eauto.
Qed.
Lemma convert_steps : forall v e s v' s', convert_type v e s = (v', s') -> steps s s'.
Proof.
  intros v e s v' s' H. unfold convert_type in H.
  destruct (vty v); try (injection H as <- <-; constructor);
  destruct e as [[]|]; try (injection H as <- <-; constructor);
  (eapply emit1_steps; [|exact H]; exact I).
Qed.
Lemma bind_steps : forall n i b s s', (forall l, b <> BLazy l) -> bind n i b s = Some s' -> steps s s'.
Proof.
  intros n i b s s' Hb H. unfold bind in H.
  destruct (vget (s_vals s) (n, i)) eqn:E; [discriminate|].
  eapply st_step; [apply t_bind; eauto|].
  match type of H with match ?c with _ => _ end = _ => destruct c as [h|] end.
  - destruct b; simpl in H; try discriminate. destruct h; injection H as <-; apply steps1.
    + match goal with |- tstep ?x _ => now apply (t_emit x KOverwrite [v; V m TyTensor] []) end.
    + match goal with |- tstep ?x _ => now apply (t_emit x (KStore buf) [v] []) end.
  - injection H as <-. constructor.
Qed.
Lemma bind_attr_steps : forall n obj s s', (forall l, obj = Some l -> oklit l) ->
  bind_attr n obj s = Some s' -> steps s s'.
Proof.
  intros n [l|] s s' Hl H; [|discriminate]. cbn [bind_attr] in H.
  destruct (import_literal l s) as [[v s1]|] eqn:E; [|discriminate]. cbn [obind] in H.
  apply import_literal_steps in E; auto. apply bind_steps in H; [|discriminate].
  eauto using steps_trans.
Qed.
Lemma import_elem_steps : forall t o a s v s', okarg a ->
  import_elem attr_of t o a s = Some (v, s') -> steps s s'.
Proof.
  intros t o a s v s' Ha H. inversion Ha as [n [Hn Hat]|l Hl| |]; subst;
    cbn [import_elem] in H; try discriminate.
  - destruct (memb n (s_multi s)); [discriminate|].
    match type of H with obind ?c _ = _ => destruct c as [s1|] eqn:E1; [|discriminate] end.
    cbn [obind] in H.
    assert (G : steps s s1).
    { destruct (attr_of n) as [obj|] eqn:Ea; [|injection E1 as <-; constructor].
      destruct (vget (s_vals s) (n, 0)); [injection E1 as <-; constructor|].
      eapply bind_attr_steps; eauto. intros l ->. eauto. }
    destruct (resolve n 0 s1) as [[v2 s2]|] eqn:E2; [|discriminate]. cbn [obind] in H.
    destruct (node_elem_ok t v2); [|discriminate]. cbn [obind guard] in H.
    injection H as -> ->. apply resolve_steps in E2; auto. eauto using steps_trans.
  - destruct (lit_elem_ok t o l); [|discriminate]. cbn [obind guard] in H.
    eapply import_const_steps; eauto.
Qed.
Lemma import_elems_steps : forall t o l s vs s', Forall okarg l ->
  import_elems attr_of t o l s = Some (vs, s') -> steps s s'.
Proof.
  induction l as [|a r IH]; intros s vs s' Hl H; cbn [import_elems] in H.
  - injection H as <- <-. constructor.
  - inversion Hl; subst.
    destruct (import_elem attr_of t o a s) as [[v s1]|] eqn:E1; [|discriminate]. cbn [obind] in H.
    destruct (import_elems attr_of t o r s1) as [[vs' s2]|] eqn:E2; [|discriminate].
    cbn [obind] in H. injection H as <- <-.
    apply import_elem_steps in E1; auto. eauto using steps_trans.
Qed.
Lemma import_list_steps : forall e l s v s', Forall okarg l ->
  import_list attr_of e l s = Some (v, s') -> steps s s'.
Proof.
  intros e l s v s' Hl H. unfold import_list in H.
  destruct (elem_type e) as [[t o]|]; [|discriminate]. cbn [obind] in H.
  destruct (import_elems attr_of t o l s) as [[vs s1]|] eqn:E1; [|discriminate].
  cbn [obind] in H.
  match type of H with Some ?c = _ => assert (H' : c = (v, s')) by congruence end.
  apply import_elems_steps in E1; auto. apply emit1_steps in H'; [|exact I]. eauto using steps_trans.
Qed.
Lemma conv_steps : forall (c : option (val * st)) s v s' e,
  (forall v1 s1, c = Some (v1, s1) -> steps s s1) ->
  (do (v1, s1) <- c; Some (convert_type v1 e s1)) = Some (v, s') -> steps s s'.
Proof.
  intros c s v s' e Hf H. destruct c as [[v1 s1]|] eqn:E; [|discriminate].
  cbn [obind] in H. assert (H' : convert_type v1 e s1 = (v, s')) by congruence.
  apply convert_steps in H'. eapply steps_trans; eauto.
Qed.
Lemma import_scalar_steps : forall l s v s', import_scalar_as_tensor l s = Some (v, s') -> steps s s'.
Proof.
  intros l s v s' H. unfold import_scalar_as_tensor in H.
  destruct l; try discriminate;
  match type of H with obind ?c _ = _ => destruct c as [[c0 s0]|] eqn:E1; [|discriminate] end;
  cbn [obind] in H;
  match type of H with Some ?c = _ => assert (H' : c = (v, s')) by congruence end;
  apply import_const_steps in E1; simpl; auto; apply emit1_steps in H'; simpl; auto;
  eauto using steps_trans.
Qed.
Lemma import_arg_steps : forall e a s v s', okarg a ->
  import_arg attr_of e a s = Some (v, s') -> steps s s'.
Proof.
  intros e a s v s' Ha H. inversion Ha as [n [Hn Hat]|l Hl|l Hl|]; subst;
    cbn [import_arg] in H; try discriminate.
  - destruct (memb n (s_multi s)); [discriminate|].
    match type of H with obind ?c _ = _ => destruct c as [s1|] eqn:E1; [|discriminate] end.
    cbn [obind] in H.
    assert (G : steps s s1).
    { destruct (attr_of n) as [obj|] eqn:Ea; [|injection E1 as <-; constructor].
      eapply bind_attr_steps; eauto. intros l ->. eauto. }
    eapply steps_trans; [exact G|]. eapply conv_steps; [|exact H].
    intros. eapply resolve_steps; eauto.
  - destruct e as [[]|]; try (eapply conv_steps; [|exact H]; intros ? ? Hx; exact (import_literal_steps _ _ _ _ Hl Hx)).
    destruct l; try (eapply conv_steps; [|exact H]; intros ? ? Hx; exact (import_scalar_steps _ _ _ _ Hx)).
    eapply conv_steps; [|exact H]; intros ? ? Hx; exact (import_literal_steps _ _ _ _ Hl Hx).
  - eapply conv_steps; [|exact H]; intros; eapply import_list_steps; eauto.
Qed.
Lemma import_default_steps : forall e d s v s', okdflt d ->
  import_default attr_of e d s = Some (v, s') -> steps s s'.
Proof.
  intros e [l|l] s v s' Hd H; cbn [import_default] in H; simpl in Hd.
  - eapply import_const_steps; eauto.
  - eapply import_list_steps; [|exact H]. clear - Hd. induction Hd; simpl; constructor; auto.
    now constructor.
Qed.
Definition okps (ps : list param) : Prop := forall p d, In p ps -> p_default p = Some d -> okdflt d.
Definition okkw (kw : list (string * arg)) : Prop := forall k a, sget kw k = Some a -> okarg a.

Lemma import_params_steps : forall ps i args kw s vs s', okps ps -> Forall okarg args -> okkw kw ->
  import_params attr_of i ps args kw s = Some (vs, s') -> steps s s'.
Proof.
  induction ps as [|p r IH]; intros i args kw s vs s' Hp Ha Hk H; cbn [import_params] in H.
  - injection H as <- <-. constructor.
  - match type of H with obind ?c _ = _ => destruct c as [[v s1]|] eqn:E1; [|discriminate] end.
    cbn [obind] in H.
    assert (G : steps s s1).
    { destruct (nth_error args i) eqn:En.
      { apply nth_error_In in En. rewrite Forall_forall in Ha. eapply import_arg_steps; eauto. }
      destruct (sget kw (p_name p)) eqn:Ek; [eapply import_arg_steps; eauto|].
      eapply import_default_steps; [|exact E1].
      destruct (p_default p) eqn:Ed; [|exact I]. eapply Hp; eauto. simpl; auto. }
    destruct (import_params attr_of (S i) r args kw s1) as [[vs' s2]|] eqn:E2; [|discriminate].
    cbn [obind] in H. injection H as <- <-.
    eapply steps_trans; [exact G|]. eapply IH; eauto. intros q d Hq. apply Hp. simpl; auto.
Qed.
Lemma import_named_steps : forall ps kw s vs s', okkw kw ->
  import_named attr_of ps kw s = Some (vs, s') -> steps s s'.
Proof.
  induction ps as [|p r IH]; intros kw s vs s' Hk H; cbn [import_named] in H.
  - injection H as <- <-. constructor.
  - destruct (sget kw (p_name p)) as [a|] eqn:Ek; [|discriminate]. cbn [obind] in H.
    destruct (import_arg attr_of (Some (p_type p)) a s) as [[v s1]|] eqn:E1; [|discriminate].
    cbn [obind] in H. destruct (import_named attr_of r kw s1) as [[vs' s2]|] eqn:E2; [|discriminate].
    cbn [obind] in H. injection H as <- <-.
    apply import_arg_steps in E1; eauto using steps_trans.
Qed.
Lemma bind_results_steps : forall vs n i s s', bind_results n i vs s = Some s' -> steps s s'.
Proof.
  induction vs as [|v r IH]; intros n i s s' H; cbn [bind_results] in H.
  - injection H as <-. constructor.
  - destruct (bind n i (BVal v) s) as [s1|] eqn:E1; [|discriminate]. cbn [obind] in H.
    apply bind_steps in E1; [|discriminate]. eauto using steps_trans.
Qed.

Lemma import_call_steps : forall nd args kw sch s s',
  (forall sch', pick_schema scal registry sch args = Some sch' -> okps (s_params sch')) ->
  Forall okarg args -> okkw kw ->
  import_call attr_of scal registry nd args kw sch s = Some s' -> steps s s'.
Proof.
  intros nd args kw sch s s' Hps Ha Hk H. unfold import_call in H.
  destruct (String.eqb (s_op sch) "torch.aten.as_strided"); [discriminate|].
  destruct (pick_schema scal registry sch args) as [sch'|]; [|discriminate]. cbn [obind] in H.
  destruct (result_types nd sch') as [tys|]; [|discriminate]. cbn [obind] in H.
  match type of H with obind ?c _ = _ => destruct c as [[vs s1]|] eqn:E1; [|discriminate] end.
  cbn [obind] in H. apply import_params_steps in E1; auto.
  eapply steps_trans; [|eapply steps_trans; [exact E1|]].
  - destruct (1 <? length tys); [apply steps1; constructor|constructor].
  - eapply st_step; [apply (t_emit s1 (KTorch (s_op sch')) vs tys I)|].
    eapply bind_results_steps. exact H.
Qed.
Lemma import_auto_steps : forall nd sch s s', okkw (n_kwargs nd) ->
  import_auto attr_of nd sch s = Some s' -> steps s s'.
Proof.
  intros nd sch s s' Hk H. unfold import_auto in H.
  destruct (n_tys nd) as [tys|]; [|discriminate]. cbn [obind] in H.
  match type of H with obind ?c _ = _ => destruct c as [irtys|]; [|discriminate] end.
  cbn [obind] in H.
  destruct (import_named attr_of (s_params sch) (n_kwargs nd) s) as [[vs s1]|] eqn:E1; [|discriminate].
  cbn [obind] in H. apply import_named_steps in E1; auto.
  eapply steps_trans; [exact E1|].
  eapply st_step; [apply (t_emit s1 (KTorch (s_op sch)) vs irtys I)|].
  rewrite (surjective_pairing (emit (KTorch (s_op sch)) vs irtys s1)) in H.
  eapply st_step; [apply t_multi|].
  destruct (Nat.eqb (s_returns sch) 0).
  - match type of H with obind ?c _ = _ => destruct c as [s4|] eqn:E4; [|discriminate] end.
    cbn [obind] in H. eapply steps_trans; [eapply bind_steps; [|exact E4]; discriminate|].
    eapply bind_results_steps. exact H.
  - eapply bind_results_steps. exact H.
Qed.

Lemma resolve_unpack : forall n i s v s', resolve n i s = Some (v, s') -> s_unpack s' = s_unpack s.
Proof.
  intros n i s v s' H. unfold resolve in H.
  destruct (vget (s_vals s) (n, i)) as [[v0|l|]|]; try discriminate; [congruence|].
  destruct (import_literal l s) as [[v1 s1]|] eqn:E1; [|discriminate]. cbn [obind] in H.
  injection H as <- <-. simpl.
  destruct l as [| | | | |? [|]|[|]|]; simpl in E1; try discriminate; now inversion E1.
Qed.

Lemma import_getitem_steps : forall g nd s s',
  (forall r i, n_args nd = [ANode r; ALit (LInt i)] -> okf r) ->
  import_getitem g nd s = Some s' -> steps s s'.
Proof.
  intros g nd s s' Hf H. unfold import_getitem in H.
  destruct (n_args nd) as [|[r| | |] [|[|[| |i| | | | |]| |] [|]]]; try discriminate.
  specialize (Hf _ _ eq_refl).
  destruct (memb r (s_multi s)).
  - destruct (i <? 0)%Z; [discriminate|].
    destruct (resolve r (Z.to_nat i) s) as [[v s1]|] eqn:E1; [|discriminate]. cbn [obind] in H.
    apply resolve_steps in E1; auto. apply bind_steps in H; [|discriminate].
    eauto using steps_trans.
  - match type of H with obind ?c _ = _ => destruct c as [s1|] eqn:E1; [|discriminate] end.
    cbn [obind] in H.
    destruct (sget (s_unpack s1) r) as [vs|] eqn:E2; [|discriminate]. cbn [obind] in H.
    destruct (pyidx vs i) as [v|] eqn:E3; [|discriminate]. cbn [obind] in H.
    apply bind_steps in H; [|discriminate]. eapply steps_trans; [|exact H].
    destruct (sget (s_unpack s) r) eqn:E5.
    { injection E1 as <-. constructor. }
    destruct (resolve r 0 s) as [[v0 s2]|] eqn:E4; [|discriminate]. cbn [obind] in E1.
    pose proof (resolve_unpack _ _ _ _ _ E4) as Hu.
    apply resolve_steps in E4; auto. eapply steps_trans; [exact E4|].
    destruct (is_list_ty (vty v0)).
    + destruct (obind (find_node g r) n_tys) as [tys|]; [|discriminate]. cbn [obind] in E1.
      rewrite (surjective_pairing (emit KListUnpack [v0] tys s2)) in E1. injection E1 as <-.
      apply steps1. apply (t_unpack s2 r v0 tys). congruence.
    + injection E1 as <-. constructor.
Qed.

Lemma import_outs_steps : forall l s vs s', Forall okarg l ->
  import_outs attr_of l s = Some (vs, s') -> steps s s'.
Proof.
  induction l as [|a r IH]; intros s vs s' Hl H; cbn [import_outs] in H.
  - injection H as <- <-. constructor.
  - inversion Hl; subst.
    destruct (import_arg attr_of None a s) as [[v s1]|] eqn:E1; [|discriminate].
    cbn [obind] in H. destruct (import_outs attr_of r s1) as [[vs' s2]|] eqn:E2; [|discriminate].
    cbn [obind] in H. injection H as <- <-.
    apply import_arg_steps in E1; eauto using steps_trans.
Qed.

(** What a node may mention. *)
Definition oknd (n : node) : Prop :=
  Forall okarg (n_args n) /\ okkw (n_kwargs n) /\
  (forall sch, n_op n = Call (TOverload sch) \/ n_op n = Call (TConcrete sch) -> okps (s_params sch)).
Definition okreg : Prop := forall k sch, registry k = Some sch -> okps (s_params sch).

Lemma pick_okps : forall sch args sch', okreg -> okps (s_params sch) ->
  pick_schema scal registry sch args = Some sch' -> okps (s_params sch').
Proof.
  intros sch args sch' Hr Hs H. unfold pick_schema in H.
  destruct (scalar_variant (s_op sch)); [|injection H as <-; auto].
  destruct (nth_error args 1); [|discriminate].
  destruct (is_scalar_arg scal a); [eauto|injection H as <-; auto].
Qed.
Lemma add_missing_okkw : forall d kw, okkw kw -> (forall k v, In (k, v) d -> oklit v) ->
  okkw (add_missing kw d).
Proof.
  induction d as [|[k v] d IH]; intros kw Hk Hd; simpl; auto. apply IH.
  - destruct (sget kw k); auto. intros k0 a. clear IH. revert Hk.
    assert (HH : forall l, (forall k0 a, sget l k0 = Some a -> okarg a) ->
               sget (l ++ [(k, ALit v)]) k0 = Some a -> okarg a).
    { induction l as [|[k1 a1] l IHl]; simpl; intros Hl.
      - destruct (String.eqb k k0); [|discriminate]. intros [= <-]. constructor. eapply Hd. left; eauto.
      - destruct (String.eqb k1 k0) eqn:E.
        + intros [= <-]. apply (Hl k1). now rewrite String.eqb_refl.
        + intros H. destruct (sget l k0) eqn:El.
          * assert (sget (l ++ [(k, ALit v)]) k0 = sget l k0).
            { clear - El. revert a0 El. induction l as [|[k2 a2] l IH]; simpl; intros; [discriminate|].
              destruct (String.eqb k2 k0); auto. eapply IH; eauto. }
            rewrite H0, El in H. injection H as <-. apply (Hl k0). rewrite E. exact El.
          * assert (sget (l ++ [(k, ALit v)]) k0 = sget [(k, ALit v)] k0).
            { clear - El. induction l as [|[k2 a2] l IH]; simpl in *; auto.
              destruct (String.eqb k2 k0); auto. discriminate. }
            rewrite H0 in H. simpl in H. destruct (String.eqb k k0); [|discriminate].
            injection H as <-. constructor. eapply Hd. left; eauto. }
    intros Hk. apply HH. exact Hk.
  - intros k0 v0 Hin. eapply Hd. right; eauto.
Qed.
Lemma slice_In : forall {A} (l : list A) i x, In x (slice_from l i) -> In x l.
Proof.
  unfold slice_from. intros A l i x H.
  match type of H with In _ (skipn ?n _) => rewrite <- (firstn_skipn n l) end.
  apply in_or_app. auto.
Qed.
Lemma canon_ok : forall n sch a kw sch', okreg -> Forall okarg (n_args n) -> okkw (n_kwargs n) ->
  okps (s_params sch) -> canonicalize registry n sch = Some (Some (a, kw, sch')) ->
  Forall okarg a /\ okkw kw /\ okps (s_params sch').
Proof.
  intros n sch a kw sch' Hr Ha Hk Hp H. unfold canonicalize in H.
  assert (N0 : forall x, nth_error (n_args n) 0 = Some x -> Forall okarg [x]).
  { intros x Hx. apply nth_error_In in Hx. rewrite Forall_forall in Ha. auto. }
  repeat match type of H with
  | (if ?c then _ else _) = _ => destruct c
  | obind ?c _ = Some _ => destruct c eqn:?; [|discriminate]; cbn [obind] in H
  end; try discriminate; injection H as <- <- <-; repeat split; eauto.
  - intros k x. cbn [sget]. destruct (String.eqb "memory_format" k); [|discriminate].
    intros [= <-]. now constructor.
  - apply add_missing_okkw; auto. intros k v Hin. apply slice_In in Hin. simpl in Hin.
    repeat destruct Hin as [[= <- <-]|Hin]; simpl; auto; contradiction.
Qed.

Lemma import_node_steps : forall g skip n args s args' ret s', okreg -> oknd n ->
  import_node attr_of scal registry g skip n args s = Some (args', ret, s') -> steps s s'.
Proof.
  intros g skip n args s args' ret s' Hr (Ha & Hk & Hps) H. unfold import_node in H.
  destruct (n_op n) as [|o|[]| |].
  - destruct skip; [injection H as <- <- <-; constructor|].
    destruct args as [|v r]; [discriminate|].
    destruct (bind (n_name n) 0 (BVal v) s) as [s1|] eqn:E1; [|discriminate]. cbn [obind] in H.
    injection H as <- <- <-. eapply bind_steps; [|exact E1]. discriminate.
  - injection H as <- <- <-. constructor.
  - destruct (import_getitem g n s) as [s1|] eqn:E1; [|discriminate]. cbn [obind] in H.
    injection H as <- <- <-. eapply import_getitem_steps; [|exact E1].
    intros r i Hn. rewrite Hn in Ha. inversion Ha as [|? ? H1 _]; subst. inversion H1 as [? [H2 _]| | |]; auto.
  - destruct (canonicalize registry n s0) as [[[[a kw] sch']|]|] eqn:Ec; [| |discriminate]; cbn [obind] in H.
    + destruct (import_call attr_of scal registry n a kw sch' s) as [s1|] eqn:E1; [|discriminate].
      cbn [obind] in H. injection H as <- <- <-.
      destruct (canon_ok _ _ _ _ _ Hr Ha Hk (Hps _ (or_introl eq_refl)) Ec) as (A1 & A2 & A3).
      eapply import_call_steps; [|exact A1|exact A2|exact E1]. intros. eapply pick_okps; eauto.
    + injection H as <- <- <-. constructor.
  - match type of H with obind ?c _ = _ => destruct c as [s1|] eqn:E1; [|discriminate] end.
    cbn [obind] in H. injection H as <- <- <-.
    eapply import_call_steps; [|exact Ha|exact Hk|exact E1]. intros. eapply pick_okps; eauto.
  - match type of H with obind ?c _ = _ => destruct c as [s1|] eqn:E1; [|discriminate] end.
    cbn [obind] in H. injection H as <- <- <-. eapply import_auto_steps; eauto.
  - discriminate.
  - destruct skip; [injection H as <- <- <-; constructor|].
    destruct (nth_error (n_args n) 0) as [a|] eqn:En; [|discriminate]. cbn [obind] in H.
    match type of H with obind ?c _ = _ => destruct c as [[vs s1]|] eqn:E1; [|discriminate] end.
    cbn [obind] in H. injection H as <- <- <-. eapply import_outs_steps; [|exact E1].
    apply nth_error_In in En. rewrite Forall_forall in Ha. specialize (Ha _ En).
    inversion Ha; subst; auto.
  - injection H as <- <- <-. constructor.
Qed.
Lemma import_nodes_steps : forall ns g skip args s ret s', okreg -> Forall oknd ns ->
  import_nodes attr_of scal registry g skip ns args s = Some (ret, s') -> steps s s'.
Proof.
  induction ns as [|n r IH]; intros g skip args s ret s' Hr Hn H; cbn [import_nodes] in H.
  - injection H as <- <-. constructor.
  - match type of H with obind ?c _ = _ => destruct c as [[[args1 ret1] s1]|] eqn:E1; [|discriminate] end.
    cbn [obind] in H.
    match type of H with obind ?c _ = _ => destruct c as [[ret2 s2]|] eqn:E2; [|discriminate] end.
    cbn [obind] in H. injection H as <- <-. inversion Hn; subst.
    apply import_node_steps in E1; auto. eapply steps_trans; eauto.
Qed.

End Trace.

(** ** Unpackings: one per node *)
Definition is_unpack (o : op) : bool := match o_kind o with KListUnpack => true | _ => false end.
Definition unpacks (ops : list op) : nat := length (filter is_unpack ops).
Lemma unpacks_app : forall a b, unpacks (a ++ b) = unpacks a + unpacks b.
Proof. intros. unfold unpacks. rewrite filter_app, app_length. lia. Qed.

Definition unpack_inv (s : st) : Prop :=
  unpacks (s_ops s) = length (s_unpack s) /\ NoDup (map fst (s_unpack s)).

Lemma import_literal_shape : forall l s v s', import_literal l s = Some (v, s') ->
  exists o, s_ops s' = s_ops s ++ o /\ unpacks o = 0 /\ s_unpack s' = s_unpack s /\
    s_vals s' = s_vals s.
Proof.
  intros l s v s' H. destruct l as [| | | | |? [|]|[|]|]; simpl in H; try discriminate;
  inversion H; subst; simpl; eexists; rewrite <- ?app_assoc; (split; [reflexivity|auto]).
Qed.
Lemma sget_None_fst : forall A (l : list (string * A)) r, sget l r = None -> ~ In r (map fst l).
Proof.
  induction l as [|[k x] l IH]; simpl; intros r H; auto.
  destruct (String.eqb_spec k r); [discriminate|]. intros [Hc|Hc]; [congruence|].
  now apply (IH _ H).
Qed.
Lemma steps_unpack : forall Lid okf s s', steps Lid okf s s' -> unpack_inv s -> unpack_inv s'.
Proof.
  induction 1 as [|a b c H _ IH]; auto. intros [H1 H2]. apply IH. clear IH c.
  destruct H as [s k args tys Hk|s n i b Hv Hb|s n i l v s1 Hf Hv Hi|s n|s r v tys Hr].
  - split; auto. simpl. rewrite unpacks_app, H1.
    destruct k; simpl in Hk; try contradiction; unfold unpacks; simpl; lia.
  - split; auto.
  - destruct (import_literal_shape _ _ _ _ Hi) as (o & E1 & E2 & E3 & _).
    split; simpl; rewrite ?E3; auto. rewrite E1, unpacks_app. lia.
  - split; auto.
  - split; simpl.
    + rewrite unpacks_app, H1. unfold unpacks. simpl. lia.
    + constructor; auto. now apply sget_None_fst.
Qed.

(** ** Loads of one tensor object *)
Definition is_load (id : nat) (o : op) : bool :=
  match o_kind o with KConst (LTensor i _) | KConstU8 i => Nat.eqb i id | _ => false end.
Definition loads (id : nat) (ops : list op) : nat := length (filter (is_load id) ops).
Definition is_pending (id : nat) (b : (string * nat) * binding) : bool :=
  match snd b with BLazy (LTensor i _) => Nat.eqb i id | _ => false end.
Definition pending (id : nat) (l : list ((string * nat) * binding)) : nat :=
  length (filter (is_pending id) l).
Lemma loads_app : forall id a b, loads id (a ++ b) = loads id a + loads id b.
Proof. intros. unfold loads. rewrite filter_app, app_length. lia. Qed.
Lemma pending_cons : forall id x l,
  pending id (x :: l) = (if is_pending id x then 1 else 0) + pending id l.
Proof. intros. unfold pending. simpl. destruct (is_pending id x); simpl; lia. Qed.

Definition lit_loads (id : nat) (l : lit) : nat :=
  match l with LTensor i _ => if Nat.eqb i id then 1 else 0 | _ => 0 end.
Lemma import_literal_loads : forall id l s v s', import_literal l s = Some (v, s') ->
  loads id (s_ops s') = loads id (s_ops s) + lit_loads id l.
Proof.
  intros id l s v s' H. destruct l as [| | | | |i [|]|[|]|]; simpl in H; try discriminate;
  inversion H; subst; simpl; rewrite !loads_app; unfold loads; simpl;
    unfold is_load; simpl; try destruct (Nat.eqb i id); simpl; lia.
Qed.
Lemma vset_pending : forall id vals k l v, vget vals k = Some (BLazy l) ->
  pending id (vset vals k (BVal v)) + lit_loads id l = pending id vals.
Proof.
  induction vals as [|[k0 b0] r IH]; simpl; intros k l v H; [discriminate|].
  destruct (keyb k0 k).
  - injection H as ->. rewrite !pending_cons. unfold is_pending. simpl.
    destruct l; simpl; lia.
  - rewrite !pending_cons. specialize (IH _ _ v H). lia.
Qed.

Lemma steps_loads : forall id okf s s', steps (fun i => i <> id) okf s s' ->
  loads id (s_ops s') + pending id (s_vals s') = loads id (s_ops s) + pending id (s_vals s).
Proof.
  induction 1 as [|a b c H _ IH]; auto. rewrite IH. clear IH c.
  destruct H as [s k args tys Hk|s n i b Hv Hb|s n i l v s1 Hf Hv Hi|s n|s r v tys Hr]; simpl.
  - rewrite loads_app. assert (loads id [Op k (map vid args) (map vid (mkvals (s_next s) tys))] = 0).
    { unfold loads, is_load. destruct k as [[| | | | |i b| |]| | | | | | | | | |]; simpl in *; auto;
        match goal with |- context [Nat.eqb ?a ?b] => destruct (Nat.eqb_spec a b) end;
        simpl; auto; congruence. }
    lia.
  - rewrite pending_cons. unfold is_pending. simpl. destruct b; try lia. exfalso. eapply Hb; eauto.
  - rewrite (import_literal_loads id _ _ _ _ Hi).
    destruct (import_literal_shape _ _ _ _ Hi) as (_ & _ & _ & _ & E). rewrite E.
    pose proof (vset_pending id _ _ _ v Hv). lia.
  - auto.
  - rewrite loads_app. unfold loads at 2. simpl. lia.
Qed.

(** ** A lazily bound node that is never referenced stays lazy *)
Lemma vget_vset_other : forall l k b k', k <> k' -> vget (vset l k b) k' = vget l k'.
Proof.
  assert (E : forall a b, keyb a b = true -> a = b).
  { intros [a b] [c d]. unfold keyb. simpl. rewrite andb_true_iff, String.eqb_eq, Nat.eqb_eq.
    intros [-> ->]. reflexivity. }
  induction l as [|[k0 b0] r IH]; intros k b k' Hne; simpl; auto.
  destruct (keyb k0 k) eqn:E1; simpl.
  - apply E in E1. subst k0. destruct (keyb k k') eqn:E2; auto. apply E in E2. contradiction.
  - destruct (keyb k0 k'); auto.
Qed.
Lemma steps_lazy : forall Lid n l s s', steps Lid (fun k => k <> n) s s' ->
  vget (s_vals s) (n, 0) = Some (BLazy l) -> vget (s_vals s') (n, 0) = Some (BLazy l).
Proof.
  induction 1 as [|a b c H _ IH]; auto. intros H0. apply IH. clear IH c.
  destruct H as [s k args tys Hk|s m i b Hv Hb|s m i l' v s1 Hf Hv Hi|s m|s r v tys Hr]; simpl; auto.
  - destruct (keyb (m, i) (n, 0)) eqn:E; auto. unfold keyb in E. simpl in E.
    apply andb_true_iff in E. destruct E as [E1 E2]. apply String.eqb_eq in E1.
    apply Nat.eqb_eq in E2. subst. congruence.
  - destruct (import_literal_shape _ _ _ _ Hi) as (_ & _ & _ & _ & E).
    rewrite vget_vset_other, E; auto. congruence.
Qed.
