(** The analysis finds exactly the values and slots from which something bad is reached. *)
From Coq Require Import Bool PeanoNat Lia List.
From Verif Require Import Prelude InlineSlotsModel InlineSlotsSpec.
Import ListNotations.
Open Scope nat_scope.

Lemma mem_in : forall n l, mem n l = true <-> In n l.
Proof. intros. unfold mem. rewrite existsb_exists. split; [intros (k & A & B); apply Nat.eqb_eq in B; subst; exact A|intros H; exists n; split; [exact H|apply Nat.eqb_refl]]. Qed.
Lemma mem_out : forall n l, mem n l = false <-> ~ In n l.
Proof. intros. rewrite <- mem_in. destruct (mem n l); split; intros; try discriminate; auto. destruct H. reflexivity. Qed.
Ltac dob H x E := match type of H with context [obind ?a _] => destruct a as [x|] eqn:E; [cbn [obind] in H|discriminate] end.

Lemma handed_false : forall o i, used_as_value o i = false <-> handed o i.
Proof.
  intros o i. unfold used_as_value, handed. destruct (value_semantics o); [split; [discriminate|intros [H _]; discriminate]|].
  destruct (is o); try (split; [intros _; split; [reflexivity|intros [H _]; discriminate]|reflexivity]).
  rewrite Nat.eqb_neq. split; [intros H; split; [reflexivity|tauto]|intros [_ H]; tauto].
Qed.
Lemma object_false : forall v, trivially_safe (snd v) = false <-> object v.
Proof. intros [n t]. unfold object. cbn. destruct t; cbn; split; intros; try discriminate; try contradiction; auto. Qed.

Section Analysis.
Context (a : bool) (p : list op).
Hypothesis once : typed_once p.

Definition extends (st st' : state) : Prop := (exists x, unsafe_values st' = x ++ unsafe_values st) /\ (exists y, unsafe_slots st' = y ++ unsafe_slots st).
Lemma extends_refl : forall st, extends st st. Proof. intros st. split; exists []; reflexivity. Qed.
Lemma extends_trans : forall x y z, extends x y -> extends y z -> extends x z.
Proof. intros x y z [[a1 A1] [b1 B1]] [[a2 A2] [b2 B2]]. split; [exists (a2 ++ a1); rewrite A2, A1, app_assoc; reflexivity|exists (b2 ++ b1); rewrite B2, B1, app_assoc; reflexivity]. Qed.
Lemma extends_size : forall x y, extends x y -> size x <= size y /\ (size y = size x -> y = x).
Proof.
  intros [xv xs] [yv ys] [[a1 A] [b1 B]]. unfold size. cbn in *. subst. rewrite !app_length. split; [lia|]. intros H.
  assert (List.length a1 = 0) by lia. assert (List.length b1 = 0) by lia. destruct a1; [|discriminate]. destruct b1; [reflexivity|discriminate].
Qed.

Lemma safe_use_false : forall st o i, safe_use st o i = false <->
  handed o i /\ (effect_free o = false \/ exists r, In r (results o) /\ In (fst r) (unsafe_values st))
  /\ (forall slots, is o = Initialize slots -> forall s, nth_error slots i = Some s -> In s (unsafe_slots st)).
Proof.
  intros st o i. unfold safe_use. destruct (used_as_value o i) eqn:U; [split; [discriminate|intros [H _]; apply handed_false in H; congruence]|].
  apply handed_false in U. destruct (effect_free o) eqn:EF; cbn [andb].
  - destruct (forallb (fun r => negb (mem (fst r) (unsafe_values st))) (results o)) eqn:F.
    + split; [discriminate|]. intros (_ & [H|(r & R1 & R2)] & _); [discriminate|]. rewrite forallb_forall in F. specialize (F _ R1). apply negb_true_iff, mem_out in F. contradiction.
    + assert (X : exists r, In r (results o) /\ In (fst r) (unsafe_values st)).
      { clear -F. induction (results o) as [|r l IH]; cbn in F; [discriminate|]. destruct (mem (fst r) (unsafe_values st)) eqn:M; [exists r; split; [left; reflexivity|apply mem_in; exact M]|].
        destruct (IH F) as (r' & A & B). exists r'. split; [right; exact A|exact B]. }
      split.
      * intros H. split; [exact U|]. split; [right; exact X|]. intros slots E s N. rewrite E, N in H. apply negb_false_iff, mem_in in H. exact H.
      * intros (_ & _ & H). destruct (is o); try reflexivity. destruct (nth_error slots i) eqn:N; [|reflexivity]. apply negb_false_iff, mem_in. eapply H; eauto.
  - split.
    + intros H. split; [exact U|]. split; [left; reflexivity|]. intros slots E s N. rewrite E, N in H. apply negb_false_iff, mem_in in H. exact H.
    + intros (_ & _ & H). destruct (is o); try reflexivity. destruct (nth_error slots i) eqn:N; [|reflexivity]. apply negb_false_iff, mem_in. eapply H; eauto.
Qed.
Lemma safe_uses_false : forall st v o l i, safe_uses st v o i l = false <-> exists j u, nth_error l j = Some u /\ fst u = fst v /\ safe_use st o (i + j) = false.
Proof.
  intros st v o. induction l as [|u l IH]; cbn; intros i.
  - split; [discriminate|]. intros ([|j] & u & H & _); discriminate.
  - rewrite andb_false_iff, orb_false_iff, negb_false_iff, Nat.eqb_eq, IH. split.
    + intros [[A B]|(j & u' & A & B & C)]; [exists 0, u; rewrite Nat.add_0_r; auto|]. exists (S j), u'. rewrite Nat.add_succ_r. auto.
    + intros ([|j] & u' & A & B & C); cbn in A; [injection A as ->; rewrite Nat.add_0_r in C; auto|]. right. exists j, u'. rewrite Nat.add_succ_r in C. auto.
Qed.
Lemma forallb_false : forall A (f : A -> bool) l, forallb f l = false <-> exists x, In x l /\ f x = false.
Proof.
  intros A f. induction l as [|x l IH]; cbn; [split; [discriminate|intros (x & [] & _)]|]. rewrite andb_false_iff, IH. split.
  - intros [H|(y & Y & Y')]; eauto.
  - intros (y & [<-|Y] & Y'); eauto.
Qed.
Lemma safe_value_false : forall st v, safe_value p st v = false <->
  object v /\ exists o i, In o p /\ (exists u, nth_error (operands o) i = Some u /\ fst u = fst v) /\ safe_use st o i = false.
Proof.
  intros st v. unfold safe_value. destruct (trivially_safe (snd v)) eqn:T.
  - split; [discriminate|]. intros [H _]. apply object_false in H. congruence.
  - apply object_false in T. rewrite forallb_false. split.
    + intros (o & I & H). apply safe_uses_false in H. destruct H as (j & u & A & B & C). split; [exact T|]. exists o, j. split; [exact I|]. split; [eauto|exact C].
    + intros (_ & o & i & I & (u & A & B) & C). exists o. split; [exact I|]. apply safe_uses_false. exists i, u. auto.
Qed.
Lemma safe_use_extends : forall st st' o i, extends st st' -> safe_use st o i = false -> safe_use st' o i = false.
Proof.
  intros st st' o i [[x X] [y Y]] H. apply safe_use_false in H. apply safe_use_false. destruct H as (A & B & C). split; [exact A|]. split.
  - destruct B as [B|(r & R1 & R2)]; [left; exact B|right]. exists r. split; [exact R1|]. rewrite X. apply in_or_app. auto.
  - intros slots E s N. rewrite Y. apply in_or_app. right. eapply C; eauto.
Qed.
Lemma safe_value_extends : forall st st' v, extends st st' -> safe_value p st v = false -> safe_value p st' v = false.
Proof. intros st st' v X H. apply safe_value_false in H. apply safe_value_false. destruct H as (A & o & i & B & C & D). split; [exact A|]. exists o, i. split; [exact B|]. split; [exact C|]. exact (safe_use_extends _ _ _ _ X D). Qed.

(** What holds of the states *)
Record good (st : state) : Prop := {
  stable_values : forall o v, In o p -> In v (results o) -> In (fst v) (unsafe_values st) -> safe_value p st v = false;
  values_bad : forall n, In n (unsafe_values st) -> bad_value p n;
  slots_bad : forall s, In s (unsafe_slots st) -> bad_slot p s;
  values_once : NoDup (unsafe_values st);
  slots_once : NoDup (unsafe_slots st);
  values_in : incl (unsafe_values st) (map fst (flat_map results p));
  slots_in : incl (unsafe_slots st) (flat_map slots_of p) }.

Lemma add_slot_good : forall st s, good st -> bad_slot p s -> In s (flat_map slots_of p) ->
  exists l, set_safe a s false (unsafe_slots st) = Some l /\ In s l
    /\ good {| unsafe_values := unsafe_values st; unsafe_slots := l |} /\ extends st {| unsafe_values := unsafe_values st; unsafe_slots := l |}.
Proof.
  intros [vs ss] s G B I. unfold set_safe. cbn [unsafe_values unsafe_slots] in *. destruct (mem s ss) eqn:M.
  - exists ss. split; [reflexivity|]. split; [apply mem_in; exact M|]. split; [exact G|apply extends_refl].
  - exists (s :: ss). split; [reflexivity|]. split; [left; reflexivity|]. assert (X : extends {| unsafe_values := vs; unsafe_slots := ss |} {| unsafe_values := vs; unsafe_slots := s :: ss |}) by (split; [exists []|exists [s]]; reflexivity).
    split; [|exact X]. destruct G as [G1 G2 G3 G4 G5 G6 G7]. cbn in *. constructor; cbn; try assumption.
    + intros o v A1 A2 A3. eapply safe_value_extends; [exact X|]. eapply G1; eauto.
    + intros s' [<-|H]; auto.
    + constructor; [apply mem_out; exact M|exact G5].
    + intros s' [<-|H]; auto.
Qed.
Lemma visit_result_good : forall o v st, good st -> In o p -> In v (results o) ->
  exists st', visit_result a p o v st = Some st' /\ good st' /\ extends st st' /\ (safe_value p st v = false -> In (fst v) (unsafe_values st'))
    /\ (forall s, is o = GetSlot s -> In (fst v) (unsafe_values st') -> In s (unsafe_slots st')).
Proof.
  intros o v st G IO IV. unfold visit_result.
  assert (L : exists l, set_safe a (fst v) (safe_value p st v) (unsafe_values st) = Some l
     /\ good {| unsafe_values := l; unsafe_slots := unsafe_slots st |} /\ extends st {| unsafe_values := l; unsafe_slots := unsafe_slots st |} /\ (safe_value p st v = false -> In (fst v) l)).
  { unfold set_safe. destruct (mem (fst v) (unsafe_values st)) eqn:M.
    - apply mem_in in M. rewrite (stable_values _ G _ _ IO IV M). exists (unsafe_values st). destruct st as [vs ss]. cbn [unsafe_values unsafe_slots] in *. split; [reflexivity|]. split; [exact G|]. split; [apply extends_refl|auto].
    - destruct (safe_value p st v) eqn:SV.
      + exists (unsafe_values st). destruct st as [vs ss]. cbn [unsafe_values unsafe_slots] in *. split; [reflexivity|]. split; [exact G|]. split; [apply extends_refl|discriminate].
      + exists (fst v :: unsafe_values st). split; [reflexivity|]. destruct st as [vs ss]. cbn [unsafe_values unsafe_slots] in *.
        assert (X : extends {| unsafe_values := vs; unsafe_slots := ss |} {| unsafe_values := fst v :: vs; unsafe_slots := ss |}) by (split; [exists [fst v]|exists []]; reflexivity).
        assert (SV' := SV). apply safe_value_false in SV'. destruct SV' as (OB & o' & i & IO' & US & SU). apply safe_use_false in SU. destruct SU as (HA & EF & IN). cbn [unsafe_values unsafe_slots] in *.
        split; [|split; [exact X|intros _; left; reflexivity]]. destruct G as [G1 G2 G3 G4 G5 G6 G7]. cbn in *. constructor; cbn; try assumption.
        * intros o2 v2 A1 A2 [A3|A3]; [|eapply safe_value_extends; [exact X|]; eapply G1; eauto].
          assert (v = v2) as <- by (eapply (once o o2); eauto). eapply safe_value_extends; [exact X|exact SV].
        * intros n [<-|H]; [|auto]. eapply bad_use; [exact IO|exact IV|exact OB|exact IO'|exact US|exact HA| |].
          -- destruct EF as [EF|(r & R1 & R2)]; [apply changes; exact EF|apply (bad_result p o' r); auto].
          -- intros slots E s N. apply G3. eapply IN; eauto.
        * constructor; [apply mem_out; exact M|exact G4].
        * intros n [<-|H]; [|auto]. apply in_map. apply in_flat_map. eauto. }
  destruct L as (l & SL & G' & X & SV). rewrite SL. cbn [obind]. destruct (is o) eqn:K; try (eexists; split; [reflexivity|]; split; [exact G'|]; split; [exact X|]; split; [exact SV|]; intros s' Q; discriminate).
  destruct (mem (fst v) l) eqn:M.
  - apply mem_in in M. cbn [unsafe_slots].
    destruct (add_slot_good {| unsafe_values := l; unsafe_slots := unsafe_slots st |} s G') as (k & SK & IK & GK & XK).
    + eapply bad_read; [exact IO|exact K|exact IV|]. exact (values_bad _ G' _ M).
    + apply in_flat_map. exists o. split; [exact IO|]. unfold slots_of. rewrite K. left. reflexivity.
    + cbn [unsafe_slots] in SK. rewrite SK. cbn [obind]. eexists. split; [reflexivity|]. split; [exact GK|]. split; [eapply extends_trans; [exact X|exact XK]|]. split; [exact SV|]. intros s' Q _. injection Q as <-. exact IK.
  - eexists. split; [reflexivity|]. split; [exact G'|]. split; [exact X|]. split; [exact SV|]. intros s' Q I. apply mem_out in M. contradiction.
Qed.
Lemma visit_results_good : forall o vs st, good st -> In o p -> incl vs (results o) ->
  exists st', visit_results a p o vs st = Some st' /\ good st' /\ extends st st'
    /\ (st' = st -> forall v, In v vs -> (safe_value p st v = false -> In (fst v) (unsafe_values st)) /\ (forall s, is o = GetSlot s -> In (fst v) (unsafe_values st) -> In s (unsafe_slots st))).
Proof.
  intros o. induction vs as [|v vs IH]; cbn [visit_results]; intros st G IO IN.
  - exists st. split; [reflexivity|]. split; [exact G|]. split; [apply extends_refl|]. intros _ v [].
  - destruct (visit_result_good o v st G IO (IN v (or_introl eq_refl))) as (st1 & V & G1 & X1 & A1 & B1). rewrite V. cbn [obind].
    destruct (IH st1 G1 IO) as (st2 & V2 & G2 & X2 & C2); [intros u U; apply IN; right; exact U|]. exists st2. split; [exact V2|]. split; [exact G2|]. split; [eapply extends_trans; eauto|].
    intros -> . pose proof (extends_size _ _ X1) as [S1 E1]. pose proof (extends_size _ _ X2) as [S2 E2]. assert (st1 = st) by (apply E1; lia). subst st1.
    intros u [<-|U]; [split; [exact A1|exact B1]|]. apply C2; [reflexivity|exact U].
Qed.
Definition settled (st : state) (o : op) : Prop :=
  forall v, In v (results o) -> (safe_value p st v = false -> In (fst v) (unsafe_values st)) /\ (forall s, is o = GetSlot s -> In (fst v) (unsafe_values st) -> In s (unsafe_slots st)).
Lemma each_visit_good : forall l st, good st -> incl l p ->
  exists st', each (visit a p) l st = Some st' /\ good st' /\ extends st st' /\ (st' = st -> forall o, In o l -> settled st o).
Proof.
  induction l as [|o l IH]; cbn [each]; intros st G IN.
  - exists st. split; [reflexivity|]. split; [exact G|]. split; [apply extends_refl|]. intros _ o [].
  - destruct (visit_results_good o (results o) st G (IN o (or_introl eq_refl)) (incl_refl _)) as (st1 & V & G1 & X1 & C1). unfold visit. rewrite V. cbn [obind].
    destruct (IH st1 G1) as (st2 & V2 & G2 & X2 & C2); [intros u U; apply IN; right; exact U|]. exists st2. split; [exact V2|]. split; [exact G2|]. split; [eapply extends_trans; eauto|].
    intros -> . pose proof (extends_size _ _ X1) as [S1 E1]. pose proof (extends_size _ _ X2) as [S2 E2]. assert (st1 = st) by (apply E1; lia). subst st1.
    intros u [<-|U]; [exact (C1 eq_refl)|]. apply C2; [reflexivity|exact U].
Qed.
Lemma good_size : forall st, good st -> size st < enough p.
Proof.
  intros st G. unfold size, enough. pose proof (NoDup_incl_length (values_once _ G) (values_in _ G)) as A. pose proof (NoDup_incl_length (slots_once _ G) (slots_in _ G)) as B.
  pose proof (map_length fst (flat_map results p)) as L. unfold value in *. rewrite L in A. lia.
Qed.
Lemma solve_good : forall fuel st, good st -> enough p <= fuel + size st ->
  exists st', solve a p fuel st = Some st' /\ good st' /\ extends st st' /\ forall o, In o p -> settled st' o.
Proof.
  induction fuel as [|fuel IH]; intros st G L; [pose proof (good_size _ G); lia|]. cbn [solve].
  destruct (each_visit_good p st G (incl_refl _)) as (st1 & V & G1 & X1 & C1). rewrite V. cbn [obind]. pose proof (extends_size _ _ X1) as [S1 E1].
  destruct (Nat.eqb_spec (size st1) (size st)) as [E|NE].
  - pose proof (E1 E). subst st1. exists st. split; [reflexivity|]. split; [exact G|]. split; [exact X1|exact (C1 eq_refl)].
  - destruct (IH st1 G1 ltac:(lia)) as (st2 & V2 & G2 & X2 & C2). exists st2. split; [exact V2|]. split; [exact G2|]. split; [eapply extends_trans; eauto|exact C2].
Qed.

(** The walk *)
Lemma walk_rest_good : forall l st, good st -> incl l p -> (forall o s b, In o l -> is o <> Slot s b) ->
  exists st', each (walk_op a p) l st = Some st' /\ good st' /\ extends st st' /\ forall o s, In o l -> is o = SetSlot s -> In s (unsafe_slots st').
Proof.
  induction l as [|o l IH]; cbn [each]; intros st G IN NS.
  - exists st. split; [reflexivity|]. split; [exact G|]. split; [apply extends_refl|]. intros o s [].
  - assert (W : exists st0, match is o with
            | Slot s public => do k <- set_safe a s (negb public) (unsafe_slots st); Some {| unsafe_values := unsafe_values st; unsafe_slots := k |}
            | SetSlot s => do k <- set_safe a s false (unsafe_slots st); Some {| unsafe_values := unsafe_values st; unsafe_slots := k |}
            | _ => Some st
            end = Some st0 /\ good st0 /\ extends st st0 /\ forall s, is o = SetSlot s -> In s (unsafe_slots st0)).
    { destruct (is o) eqn:K; try (exists st; split; [reflexivity|]; split; [exact G|]; split; [apply extends_refl|]; intros s' Q; discriminate).
      - destruct (add_slot_good st s G) as (k & SK & IK & GK & XK).
        + eapply is_set; [apply IN; left; reflexivity|exact K].
        + apply in_flat_map. exists o. split; [apply IN; left; reflexivity|]. unfold slots_of. rewrite K. left. reflexivity.
        + rewrite SK. cbn [obind]. eexists. split; [reflexivity|]. split; [exact GK|]. split; [exact XK|]. intros s' Q. injection Q as <-. exact IK.
      - destruct (NS o s public (or_introl eq_refl)). exact K. }
    destruct W as (st0 & W & G0 & X0 & B0). unfold walk_op at 1. rewrite W. cbn [obind].
    destruct (visit_results_good o (results o) st0 G0 (IN o (or_introl eq_refl)) (incl_refl _)) as (st1 & V & G1 & X1 & _). unfold visit. rewrite V. cbn [obind].
    destruct (IH st1 G1) as (st2 & V2 & G2 & X2 & C2); [intros u U; apply IN; right; exact U|intros u s b U; apply NS; right; exact U|].
    exists st2. split; [exact V2|]. split; [exact G2|]. split; [eapply extends_trans; [exact X0|]; eapply extends_trans; eauto|].
    intros u s [<-|U] K; [|eapply C2; eauto]. destruct (extends_trans _ _ _ X1 X2) as [_ [y Y]]. rewrite Y. apply in_or_app. right. apply B0. exact K.
Qed.
Lemma walk_decls_good : forall ds st, good st -> incl ds p -> unsafe_values st = [] -> (forall o, In o ds -> exists s b, is o = Slot s b /\ results o = []) ->
  NoDup (flat_map slots_of ds) -> (forall s, In s (unsafe_slots st) -> ~ In s (flat_map slots_of ds)) ->
  exists st', each (walk_op a p) ds st = Some st' /\ good st' /\ extends st st' /\ forall o s, In o ds -> is o = Slot s true -> In s (unsafe_slots st').
Proof.
  induction ds as [|o ds IH]; cbn [each]; intros st G IN E D ND NI.
  - exists st. split; [reflexivity|]. split; [exact G|]. split; [apply extends_refl|]. intros o s [].
  - destruct (D o (or_introl eq_refl)) as (s & b & K & R). cbn [flat_map] in ND, NI. unfold slots_of at 1 in ND. rewrite K in ND. cbn in ND. inversion ND as [|s0 l0 N1 N2]; subst.
    assert (M : mem s (unsafe_slots st) = false). { apply mem_out. intros I. apply (NI _ I). apply in_or_app. left. unfold slots_of. rewrite K. left. reflexivity. }
    assert (W : exists st0, (do k <- set_safe a s (negb b) (unsafe_slots st); Some {| unsafe_values := unsafe_values st; unsafe_slots := k |}) = Some st0 /\ good st0 /\ extends st st0
       /\ (b = true -> In s (unsafe_slots st0)) /\ unsafe_values st0 = [] /\ (forall s', In s' (unsafe_slots st0) -> s' = s \/ In s' (unsafe_slots st))).
    { destruct b.
      - destruct (add_slot_good st s G) as (k & SK & IK & GK & XK).
        + eapply is_public; [apply IN; left; reflexivity|exact K].
        + apply in_flat_map. exists o. split; [apply IN; left; reflexivity|]. unfold slots_of. rewrite K. left. reflexivity.
        + cbn [negb]. rewrite SK. cbn [obind]. eexists. split; [reflexivity|]. split; [exact GK|]. split; [exact XK|]. split; [auto|]. split; [exact E|].
          unfold set_safe in SK. rewrite M in SK. injection SK as <-. cbn. intros s' [<-|H]; auto.
      - unfold set_safe. rewrite M. cbn. exists st. destruct st as [vs ss]. cbn in *. split; [reflexivity|]. split; [exact G|]. split; [apply extends_refl|]. split; [discriminate|]. auto. }
    destruct W as (st0 & W & G0 & X0 & B0 & E0 & I0). unfold walk_op at 1. rewrite K. rewrite W. cbn [obind]. unfold visit. rewrite R. cbn [visit_results obind].
    destruct (IH st0 G0) as (st2 & V2 & G2 & X2 & C2); [intros u U; apply IN; right; exact U|exact E0|intros u U; apply D; right; exact U|exact N2| |].
    + intros s' I'. destruct (I0 _ I') as [->|H]; [exact N1|]. intros Q. apply (NI _ H). apply in_or_app. right. exact Q.
    + exists st2. split; [exact V2|]. split; [exact G2|]. split; [eapply extends_trans; eauto|]. intros u s' [<-|U] K'; [|eapply C2; eauto].
      rewrite K in K'. injection K' as <- ->. destruct X2 as [_ [y Y]]. rewrite Y. apply in_or_app. right. apply B0. reflexivity.
Qed.

Theorem analyse_exact : declared_first p ->
  exists st, analyse a p = Some st /\ (forall n, In n (unsafe_values st) <-> bad_value p n) /\ (forall s, In s (unsafe_slots st) <-> bad_slot p s).
Proof.
  intros (ds & rest & E & D & NS & ND).
  assert (G0 : good {| unsafe_values := []; unsafe_slots := [] |}) by (constructor; cbn; try (intros; contradiction); try constructor; intros x []).
  assert (ID : incl ds p) by (rewrite E; apply incl_appl, incl_refl). assert (IR : incl rest p) by (rewrite E; apply incl_appr, incl_refl).
  destruct (walk_decls_good ds _ G0 ID eq_refl D ND (fun s H => match H with end)) as (st1 & W1 & G1 & X1 & B1).
  destruct (walk_rest_good rest _ G1 IR NS) as (st2 & W2 & G2 & X2 & B2).
  assert (EA : forall l r st, each (walk_op a p) (l ++ r) st = do st <- each (walk_op a p) l st; each (walk_op a p) r st).
  { clear. induction l as [|o l IH]; cbn; intros r st; [reflexivity|]. destruct (walk_op a p o st); cbn; [apply IH|reflexivity]. }
  destruct (solve_good (enough p) st2 G2 ltac:(lia)) as (st & SV & G & X & SE).
  exists st. split. { unfold analyse. rewrite E at 2. rewrite EA, W1. cbn [obind]. rewrite W2. cbn [obind]. exact SV. }
  assert (ALL : (forall n, bad_value p n -> In n (unsafe_values st)) /\ (forall o, bad_op p o -> effect_free o = false \/ exists r, In r (results o) /\ In (fst r) (unsafe_values st)) /\ (forall s, bad_slot p s -> In s (unsafe_slots st))).
  { apply (bad_mutind p (fun n => In n (unsafe_values st)) (fun o => effect_free o = false \/ exists r, In r (results o) /\ In (fst r) (unsafe_values st)) (fun s => In s (unsafe_slots st))).
    - intros o0 v o i I0 IV OB IO US HA _ BO _ IN. apply (SE o0 I0 v IV). apply safe_value_false. split; [exact OB|]. exists o, i. split; [exact IO|]. split; [exact US|]. apply safe_use_false. split; [exact HA|]. split; [exact BO|exact IN].
    - auto.
    - intros o r A _ B. right. eauto.
    - intros o s IO K. assert (IDS : In o ds). { rewrite E in IO. apply in_app_or in IO. destruct IO as [IO|IO]; [exact IO|]. destruct (NS o s true IO K). }
      destruct (extends_trans _ _ _ X2 X) as [_ [y Y]]. rewrite Y. apply in_or_app. right. eapply B1; eauto.
    - intros o s IO K. assert (IRS : In o rest). { rewrite E in IO. apply in_app_or in IO. destruct IO as [IO|IO]; [|exact IO]. destruct (D o IO) as (s' & b & K' & _). congruence. }
      destruct X as [_ [y Y]]. rewrite Y. apply in_or_app. right. eapply B2; eauto.
    - intros o s r IO K IV _ IN. exact (proj2 (SE o IO r IV) s K IN). }
  destruct ALL as (A1 & _ & A3). split; [intros n; split; [apply (values_bad _ G)|apply A1]|intros s; split; [apply (slots_bad _ G)|apply A3]].
Qed.
End Analysis.
