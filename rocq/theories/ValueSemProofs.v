(** Lemmas for C103 and C104: the rewritten block is simulated by the original one. *)
From Coq Require Import Arith Lia List Bool.
From Verif Require Import Prelude ValueSemModel ValueSemSpec.
Import ListNotations.
Open Scope nat_scope.

Lemma inb_In : forall x l, inb x l = true <-> In x l.
Proof. intros x l. unfold inb. rewrite existsb_exists. split; [intros (y & H & E); apply Nat.eqb_eq in E; now subst|intros H; exists x; split; auto; apply Nat.eqb_refl]. Qed.
Lemma inb_not : forall x l, inb x l = false <-> ~ In x l.
Proof. intros x l. rewrite <- inb_In. destruct (inb x l); split; congruence. Qed.
Lemma touches_spec : forall al o, touches al o = true <-> exists x, In x (uses o) /\ In x al.
Proof. intros al o. unfold touches. rewrite existsb_exists. split; intros (x & H & E); exists x; split; auto; now apply inb_In. Qed.
Lemma touches_not : forall al o, touches al o = false -> forall x, In x (uses o) -> ~ In x al.
Proof. intros al o H x Hx Ha. assert (touches al o = true) by (apply touches_spec; eauto). congruence. Qed.
Lemma ok_spec : forall al av l, forallb (fun x => negb (inb x al) || inb x av) l = true -> forall x, In x l -> ~ In x al \/ In x av.
Proof.
  intros al av l H x Hx. rewrite forallb_forall in H. specialize (H x Hx). apply orb_prop in H as [H|H]; [left|right; now apply inb_In].
  apply inb_not. now destruct (inb x al).
Qed.

(** * The three steps of the rewriting in one *)
Fixpoint rewritten (alias : list id) (casts : list (id * id)) (os : list op) (ret : list id) : list op * list id :=
  match os with
  | [] => ([], ret)
  | o :: rest =>
      let b := rewritten alias casts rest ret in
      match o with
      | Overwrite v x => if inb x alias then rename_all (x :: cast_aliases casts x) v b else cons_op o b
      | CopyVal r a => if inb a alias then rename_all [r] a b else cons_op o b
      | View k nv r a os => cons_op (View k (nv && negb (touches alias o)) r a os) b
      | _ => cons_op o b
      end
  end.
Lemma cast_aliases_app : forall new casts x, (forall r a, In (r, a) new -> r <> x /\ forall y, In y (cast_aliases casts x) -> r <> y) -> cast_aliases (new ++ casts) x = cast_aliases casts x.
Proof.
  induction new as [|[r a] new IH]; intros casts x H; [reflexivity|]. cbn [app cast_aliases]. destruct (H r a (or_introl eq_refl)) as [N _]. destruct (Nat.eqb_spec r x); [congruence|]. apply IH. intros r' a' Hi. apply (H r' a'). now right.
Qed.
Lemma cast_aliases_in : forall casts x y, In y (cast_aliases casts x) -> exists r, In (r, y) casts.
Proof.
  induction casts as [|[r a] casts IH]; intros x y H; [destruct H|]. cbn [cast_aliases] in H. destruct (Nat.eqb_spec r x).
  - destruct H as [<-|H]; [exists r; now left|]. destruct (IH _ _ H) as (r' & Hr). exists r'. now right.
  - destruct (IH _ _ H) as (r' & Hr). exists r'. now right.
Qed.
(** What the walk adds is defined by the operations it passes. *)
Lemma interpret_grows : forall os al av casts ret alF castsF, interpret al av casts os ret = Some (alF, castsF) ->
  exists na nc, alF = na ++ al /\ castsF = nc ++ casts /\ (forall x, In x na -> In x (flat_map defs os)) /\ (forall r a, In (r, a) nc -> In r (flat_map defs os)).
Proof.
  induction os as [|o os IH]; intros al av casts ret alF castsF H.
  - cbn [interpret] in H. destruct (forallb _ ret) in H; [|discriminate]. injection H as <- <-. exists [], []. split; [auto|]. split; [auto|]. split; [intros x []|intros r a []].
  - assert (Keep : forall av', interpret al av' casts os ret = Some (alF, castsF) -> exists na nc, alF = na ++ al /\ castsF = nc ++ casts /\ (forall x, In x na -> In x (flat_map defs (o :: os))) /\ (forall r a, In (r, a) nc -> In r (flat_map defs (o :: os)))).
    { intros av' H'. destruct (IH _ _ _ _ _ _ H') as (na & nc & E1 & E2 & D1 & D2). exists na, nc. split; [auto|]. split; [auto|]. cbn [flat_map]. split; intros; apply in_or_app; right; eauto. }
    cbn [interpret] in H. destruct (negb (touches al o)); [eauto|]. destruct (negb (forallb _ (uses o))); [discriminate|]. destruct o as [r a|r a|k nv r a l|v x|k r l]; try discriminate; eauto.
    destruct nv; [|eauto]. destruct (inb a al); [|discriminate]. destruct (IH _ _ _ _ _ _ H) as (na & nc & E1 & E2 & D1 & D2). exists (na ++ [r]), (match k with StaticInfoCast => nc ++ [(r, a)] | ViewOf _ => nc end).
    split; [rewrite <- app_assoc; exact E1|]. split; [destruct k; [rewrite <- app_assoc|]; exact E2|]. cbn [flat_map defs app]. split.
    + intros x Hx. apply in_app_or in Hx as [Hx|[<-|[]]]; [right; auto|left; auto].
    + intros r' a' Hr. destruct k as [|n]; [|right; eauto]. apply in_app_or in Hr as [Hr|[Hr|[]]]; [right; eauto|left; congruence].
Qed.

Lemma ssa_defined : forall os df nv x, ssa df nv os -> In x df -> ~ In x (flat_map defs os).
Proof.
  induction os as [|o os IH]; intros df nv x S Hx H; [destruct H|]. destruct S as (_ & N & _ & S). cbn [flat_map] in H. apply in_app_or in H as [H|H]; [exact (N x H Hx)|].
  apply (IH _ _ x S); auto. apply in_or_app. now right.
Qed.
Lemma ssa_def_once : forall o os df nv r, ssa df nv (o :: os) -> In r (defs o) -> ~ In r (flat_map defs os).
Proof. intros o os df nv r (_ & _ & _ & S) Hr. apply (ssa_defined os _ nv r S). apply in_or_app. now left. Qed.

(** * Renaming *)
Lemma rename_all_twice : forall A v r a b, ~ In r A -> v <> r -> rename_all [r] (rename A v a) (rename_all A v b) = rename_all A v (rename_all [r] a b).
Proof.
  intros A v r a [os ret] Nr Nv. assert (E : forall x, rename [r] (rename A v a) (rename A v x) = rename A v (rename [r] a x)).
  { intros x. destruct (inb x [r]) eqn:Ex.
    - apply inb_In in Ex as [<-|[]]. assert (Q : inb r A = false) by now apply inb_not. assert (Q' : inb r [r] = true) by (apply inb_In; now left).
      assert (R1 : forall y, rename [r] y r = y) by (intros y; unfold rename; now rewrite Q'). assert (R2 : rename A v r = r) by (unfold rename; now rewrite Q). now rewrite R2, !R1.
    - assert (Q : rename [r] a x = x) by (unfold rename; now rewrite Ex). rewrite Q. destruct (inb x A) eqn:EA.
      + assert (R : rename A v x = v) by (unfold rename; now rewrite EA). rewrite R. unfold rename at 1. assert (Q' : inb v [r] = false) by (apply inb_not; intros [|[]]; congruence). now rewrite Q'.
      + assert (R : rename A v x = x) by (unfold rename; now rewrite EA). rewrite R. unfold rename at 1. now rewrite Ex. }
  unfold rename_all. cbn [fst snd]. f_equal.
  - rewrite !map_map. apply map_ext. intros o. destruct o; cbn [rename_op]; rewrite ?E; auto; f_equal; auto; rewrite !map_map; apply map_ext; auto.
  - rewrite !map_map. apply map_ext. auto.
Qed.
Lemma drop_copies_rename : forall copies A v os ret, (forall r, In r (flat_map defs os) -> ~ In r A /\ v <> r) ->
  drop_copies copies (map (rename_op (rename A v)) os) (map (rename A v) ret) = rename_all A v (drop_copies copies os ret).
Proof.
  intros copies A v os ret. induction os as [|o os IH]; intros H; [reflexivity|].
  assert (Hd : forall r, In r (defs o) -> ~ In r A /\ v <> r) by (intros r Hr; apply H; cbn [flat_map]; apply in_or_app; now left).
  assert (Hr : forall r, In r (flat_map defs os) -> ~ In r A /\ v <> r) by (intros r Hr; apply H; cbn [flat_map]; apply in_or_app; now right). specialize (IH Hr).
  destruct o as [r a|r a|k nv r a l|w x|k r l]; cbn [map rename_op drop_copies]; rewrite IH; try reflexivity;
    (destruct (inb r copies); [|reflexivity]; destruct (Hd r (or_introl eq_refl)); now apply rename_all_twice).
Qed.
Lemma drop_overwrites_defs : forall al casts os ret r, In r (flat_map defs (fst (drop_overwrites al casts os ret))) -> In r (flat_map defs os).
Proof.
  intros al casts os ret r. induction os as [|o os IH]; intros H; [exact H|].
  assert (Ren : forall f l, flat_map defs (map (rename_op f) l) = flat_map defs l) by (intros f; induction l as [|x l IHl]; auto; cbn [map flat_map]; rewrite IHl; now destruct x).
  cbn [flat_map]. apply in_or_app. destruct o as [q a|q a|k nv q a l|v x|k q l]; cbn [drop_overwrites] in H; try (cbn [cons_op fst flat_map] in H; apply in_app_or in H as [H|H]; auto; fail).
  destruct (inb x al); [|cbn [cons_op fst flat_map] in H; apply in_app_or in H as [H|H]; auto]. right. apply IH. unfold rename_all in H. cbn [fst] in H. now rewrite Ren in H.
Qed.
Lemma value_view_rename : forall views f o, value_view views (rename_op f o) = rename_op f (value_view views o).
Proof. intros views f []; reflexivity. Qed.
Definition flags (views : list id) (b : list op * list id) : list op * list id := (map (value_view views) (fst b), snd b).
Lemma flags_rename : forall views A v b, flags views (rename_all A v b) = rename_all A v (flags views b).
Proof. intros views A v [os ret]. unfold flags, rename_all. cbn [fst snd]. f_equal. rewrite !map_map. apply map_ext. intros o. apply value_view_rename. Qed.

Lemma phases : forall copies views alF castsF os ret al av casts df nv, interpret al av casts os ret = Some (alF, castsF) -> ssa df nv os ->
  (forall x, In x al -> In x df) -> (forall r a, In (r, a) casts -> In r df /\ In a df) ->
  (forall r a, In (CopyVal r a) os -> inb r copies = inb a alF) -> (forall r a, In (CopyTo r a) os -> inb r copies = false) -> (forall k b r a l, In (View k b r a l) os -> inb r views = touches alF (View k b r a l)) ->
  let '(os1, ret1) := drop_overwrites alF castsF os ret in flags views (drop_copies copies os1 ret1) = rewritten alF castsF os ret.
Proof.
  intros copies views alF castsF os ret. induction os as [|o os IH]; intros al av casts df nv Hi Hs Ha Hc C1 C2 V; [reflexivity|].
  destruct (interpret_grows _ _ _ _ _ _ _ Hi) as (na & nc & Ea & Ec & Dna & Dnc). assert (Hs0 := Hs). destruct Hs as (U & N & Ty & Hs).
  assert (Dn : forall x, In x df -> ~ In x (flat_map defs (o :: os))) by (intros x Hx; apply (ssa_defined _ df nv x Hs0 Hx)).
  assert (Next : exists al' av' casts', interpret al' av' casts' os ret = Some (alF, castsF) /\ (forall x, In x al' -> In x (defs o ++ df)) /\ (forall r a, In (r, a) casts' -> In r (defs o ++ df) /\ In a (defs o ++ df))).
  { assert (Keep : forall av', interpret al av' casts os ret = Some (alF, castsF) -> exists al' av' casts', interpret al' av' casts' os ret = Some (alF, castsF) /\ (forall x, In x al' -> In x (defs o ++ df)) /\ (forall r a, In (r, a) casts' -> In r (defs o ++ df) /\ In a (defs o ++ df))).
    { intros av' H'. exists al, av', casts. split; [auto|]. split; [intros; apply in_or_app; right; auto|]. intros r a Hr. destruct (Hc r a Hr). split; apply in_or_app; now right. }
    cbn [interpret] in Hi. destruct (negb (touches al o)); [eauto|]. destruct (negb (forallb _ (uses o))); [discriminate|]. destruct o as [r a|r a|k b r a l|v x|k r l]; try discriminate; eauto.
    destruct b; [|eauto]. destruct (inb a al) eqn:Ia; [|discriminate]. apply inb_In in Ia. do 3 eexists. split; [exact Hi|]. cbn [defs app]. split.
    - intros x [<-|Hx]; [now left|right; auto].
    - intros r' a' Hr. destruct k as [|n]; [destruct Hr as [Hr|Hr]|]; try (destruct (Hc r' a' Hr); split; right; auto; fail). injection Hr as <- <-. split; [now left|right; auto]. }
  destruct Next as (al' & av' & casts' & Hi' & Ha' & Hc').
  specialize (IH al' av' casts' (defs o ++ df) nv Hi' Hs Ha' Hc' (fun r a H => C1 r a (or_intror H)) (fun r a H => C2 r a (or_intror H)) (fun k b r a l H => V k b r a l (or_intror H))).
  cbn [drop_overwrites rewritten]. assert (Dd := drop_overwrites_defs alF castsF os ret). destruct (drop_overwrites alF castsF os ret) as [os1 ret1]. cbn [fst] in Dd.
  destruct o as [r a|r a|k b r a l|v x|k r l]; cbn [cons_op fst snd drop_copies].
  - rewrite (C2 r a (or_introl eq_refl)). unfold flags in *. cbn [fst snd cons_op map value_view]. rewrite <- IH. reflexivity.
  - rewrite (C1 r a (or_introl eq_refl)). destruct (inb a alF).
    + rewrite flags_rename. now rewrite IH.
    + unfold flags in *. cbn [fst snd cons_op map value_view]. rewrite <- IH. reflexivity.
  - unfold flags in *. cbn [fst snd cons_op map value_view]. rewrite (V k b r a l (or_introl eq_refl)). rewrite <- IH. reflexivity.
  - destruct (inb x alF) eqn:Ix.
    + unfold rename_all at 1. cbn [fst snd]. rewrite drop_copies_rename.
      * rewrite flags_rename. now rewrite IH.
      * intros r Hr. apply Dd in Hr. assert (Dx : forall y, In y df -> y <> r) by (intros y Hy ->; apply (Dn r Hy); cbn [flat_map defs app]; auto).
        assert (Ux : In x df) by (apply U; cbn; auto). split; [|apply Dx; apply U; cbn; auto].
        intros Hin. assert (Q : cast_aliases castsF x = cast_aliases casts x).
        { rewrite Ec. apply cast_aliases_app. intros r' a' Hn. specialize (Dnc _ _ Hn). split; [intros ->; exact (Dn x Ux Dnc)|]. intros y Hy ->. destruct (cast_aliases_in _ _ _ Hy) as (q & Hq). destruct (Hc _ _ Hq) as [_ Hy']. exact (Dn y Hy' Dnc). }
        destruct Hin as [<-|Hin]; [exact (Dx x Ux eq_refl)|]. rewrite Q in Hin. destruct (cast_aliases_in _ _ _ Hin) as (q & Hq). destruct (Hc _ _ Hq) as [_ Hy']. exact (Dx r Hy' eq_refl).
    + unfold flags in *. cbn [fst snd cons_op map value_view drop_copies]. rewrite <- IH. reflexivity.
  - unfold flags in *. cbn [fst snd cons_op map value_view]. rewrite <- IH. reflexivity.
Qed.
