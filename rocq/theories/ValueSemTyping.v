(** Lemmas for C103 and C104: the rewritten block is in SSA form, and which values are !torch.tensor. *)
From Coq Require Import Arith Lia List Bool.
From Verif Require Import Prelude ValueSemModel ValueSemSpec ValueSemProofs ValueSemSim.
Import ListNotations.
Open Scope nat_scope.

Lemma nonvalues_made : forall args os, nonvalues args os = args ++ flat_map made os.
Proof. reflexivity. Qed.
Lemma nonvalues_app : forall args a b x, In x (nonvalues args (a ++ b)) <-> In x (nonvalues args a) \/ In x (flat_map made b).
Proof. intros args a b x. rewrite !nonvalues_made, flat_map_app, !in_app_iff. tauto. Qed.
Lemma nonvalues_spec : forall args a x, In x (nonvalues args a) <-> In x args \/ In x (flat_map made a).
Proof. intros args a x. rewrite nonvalues_made. now rewrite in_app_iff. Qed.
Lemma made_def : forall o x, In x (made o) -> In x (defs o).
Proof. intros o x H. destruct o as [r a|r a|k [] r a l|v y|k r l]; cbn [made defs] in *; auto; destruct H. Qed.
Lemma made_defs : forall os x, In x (flat_map made os) -> In x (flat_map defs os).
Proof. intros os x. rewrite !in_flat_map. intros (o & Ho & H). exists o. split; auto. destruct o as [r a|r a|k [] r a l|v y|k r l]; cbn [made defs] in *; auto; destruct H. Qed.
Lemma defs_rename : forall f os, flat_map defs (map (rename_op f) os) = flat_map defs os.
Proof. intros f. induction os as [|x l IHl]; auto. cbn [map flat_map]. rewrite IHl. now destruct x. Qed.
Lemma made_rename : forall f os, flat_map made (map (rename_op f) os) = flat_map made os.
Proof. intros f. induction os as [|x l IHl]; auto. cbn [map flat_map]. rewrite IHl. now destruct x. Qed.

Lemma ssa_nv : forall os df nv nv', (forall x, In x nv' -> In x nv) -> ssa df nv os -> ssa df nv' os.
Proof.
  induction os as [|o os IH]; intros df nv nv' Hn Hs; [exact Logic.I|]. destruct Hs as (U & N & Ty & Hs). split; [auto|]. split; [auto|]. split; [|eapply IH; eauto]. destruct o; auto.
Qed.
Lemma ssa_ext : forall os df df' nv, (forall x, In x df <-> In x df') -> ssa df nv os -> ssa df' nv os.
Proof.
  induction os as [|o os IH]; intros df df' nv Hd Hs; [exact Logic.I|]. destruct Hs as (U & N & Ty & Hs). split; [intros x Hx; apply Hd; auto|]. split; [intros r Hr H; apply (N r Hr), Hd; auto|]. split; [auto|].
  apply (IH (defs o ++ df)); auto. intros x. rewrite !in_app_iff, Hd. tauto.
Qed.
Lemma ssa_rename : forall A v nv os df df', ssa df nv os -> (forall x, In x A -> In x df) -> (forall x, In x df -> In (rename A v x) df') -> (forall x, In x df' -> In x df) -> ~ In v nv ->
  ssa df' nv (map (rename_op (rename A v)) os).
Proof.
  intros A v nv. induction os as [|o os IH]; intros df df' Hs HA Hr Hd Hv; [exact Logic.I|]. assert (Hs0 := Hs). destruct Hs as (U & N & Ty & Hs).
  assert (Huses : forall f, uses (rename_op f o) = map f (uses o)) by (intros f; now destruct o). assert (Hdefs : forall f, defs (rename_op f o) = defs o) by (intros f; now destruct o).
  assert (Hr' : forall x, ~ In x nv -> ~ In (rename A v x) nv) by (intros x Hx; unfold rename; destruct (inb x A); auto).
  cbn [map ssa]. rewrite Huses, Hdefs. split; [|split; [|split]].
  - intros x Hx. apply in_map_iff in Hx as (y & <- & Hy). auto.
  - intros r Hrr H. exact (N r Hrr (Hd r H)).
  - destruct o; cbn [rename_op]; auto.
  - apply (IH (defs o ++ df)); auto.
    + intros x Hx. apply in_or_app. right. auto.
    + intros x Hx. apply in_app_or in Hx as [Hx|Hx]; apply in_or_app; [left|right; auto]. assert (NA : inb x A = false) by (apply inb_not; intros HxA; exact (N x Hx (HA x HxA))). unfold rename. now rewrite NA.
    + intros x Hx. apply in_app_or in Hx as [Hx|Hx]; apply in_or_app; auto.
Qed.
Lemma ssa_app : forall pre post df nv, ssa df nv (pre ++ post) <-> ssa df nv pre /\ ssa (flat_map defs pre ++ df) nv post.
Proof.
  induction pre as [|o pre IH]; intros post df nv; [cbn; tauto|]. cbn [app ssa flat_map]. rewrite IH. split.
  - intros (U & N & Ty & S1 & S2). split; [auto|]. eapply ssa_ext; [|exact S2]. intros x. rewrite !in_app_iff. tauto.
  - intros ((U & N & Ty & S1) & S2). split; [auto|]. split; [auto|]. split; [auto|]. split; [auto|]. eapply ssa_ext; [|exact S2]. intros x. rewrite !in_app_iff. tauto.
Qed.

(** * The rewritten operations *)
Section Walk.
Variables (alF : list id) (castsF : list (id * id)) (nv' : list id).
Hypothesis not_nv : forall x, In x alF -> ~ In x nv'.
(** An inversion of the walk, one operation at a time. *)
Definition inside (al av : list id) (casts : list (id * id)) (df : list id) : Prop := (forall x, In x al -> In x df) /\ (forall r a, In (r, a) casts -> In r al /\ In a al).
Lemma walk_next : forall o os ret al av casts df, interpret al av casts (o :: os) ret = Some (alF, castsF) -> inside al av casts df ->
  exists al' av' casts', interpret al' av' casts' os ret = Some (alF, castsF) /\ inside al' av' casts' (defs o ++ df).
Proof.
  intros o os ret al av casts df Hi [Ha Hc].
  assert (Keep : forall av', interpret al av' casts os ret = Some (alF, castsF) -> exists al' av' casts', interpret al' av' casts' os ret = Some (alF, castsF) /\ inside al' av' casts' (defs o ++ df)).
  { intros av' H'. exists al, av', casts. split; [auto|]. split; [intros; apply in_or_app; right; auto|]. exact Hc. }
  cbn [interpret] in Hi. destruct (negb (touches al o)); [eauto|]. destruct (negb (forallb _ (uses o))); [discriminate|]. destruct o as [r a|r a|k b r a l|v x|k r l]; try discriminate; eauto.
  destruct b; [|eauto]. destruct (inb a al) eqn:Ia; [|discriminate]. apply inb_In in Ia. do 3 eexists. split; [exact Hi|]. unfold inside. cbn [defs app]. split.
  - intros x [<-|Hx]; [now left|right; auto].
  - intros r' a' Hr. destruct k as [|n]; [destruct Hr as [Hr|Hr]|]; try (destruct (Hc r' a' Hr); split; right; auto; fail). injection Hr as <- <-. split; [now left|right; auto].
Qed.
Lemma walk_overwritten : forall v x os ret al av casts df nv, interpret al av casts (Overwrite v x :: os) ret = Some (alF, castsF) -> inside al av casts df -> ssa df nv (Overwrite v x :: os) ->
  forall y, In y (x :: cast_aliases castsF x) -> In y df /\ (y = x \/ In y alF).
Proof.
  intros v x os ret al av casts df nv Hi [Ha Hc] Hs y Hy. destruct (interpret_grows _ _ _ _ _ _ _ Hi) as (na & nc & Ea & Ec & Dna & Dnc). assert (Hs0 := Hs). destruct Hs as (U & _). assert (Ux : In x df) by (apply U; cbn; auto).
  assert (Dn : forall z, In z df -> ~ In z (flat_map defs (Overwrite v x :: os))) by (intros z Hz; apply (ssa_defined _ df nv z Hs0 Hz)).
  destruct Hy as [<-|Hy]; [auto|].  assert (Q : cast_aliases castsF x = cast_aliases casts x).
  { rewrite Ec. apply cast_aliases_app. intros r' a' Hn. specialize (Dnc _ _ Hn). split; [intros ->; exact (Dn x Ux Dnc)|]. intros z Hz ->. destruct (cast_aliases_in _ _ _ Hz) as (q & Hq). destruct (Hc _ _ Hq) as [_ Hy']. exact (Dn z (Ha _ Hy') Dnc). }
  rewrite Q in Hy. destruct (cast_aliases_in _ _ _ Hy) as (q & Hq). destruct (Hc _ _ Hq) as [_ Hy']. split; [auto|]. right. rewrite Ea. apply in_or_app. now right.
Qed.
Lemma walk_ssa : forall os ret al av casts df nv, interpret al av casts os ret = Some (alF, castsF) -> inside al av casts df -> (forall x, In x nv' -> In x nv) -> ssa df nv os -> ssa df nv' (fst (rewritten alF castsF os ret)).
Proof.
  induction os as [|o os IH]; intros ret al av casts df nv Hi Hin Hn Hs; [exact Logic.I|]. destruct (walk_next _ _ _ _ _ _ _ Hi Hin) as (al' & av' & casts' & Hi' & Hin').
  assert (Hs0 := Hs). destruct Hs as (U & N & Ty & Hs). specialize (IH ret _ _ _ _ nv Hi' Hin' Hn Hs).
  assert (Keep : ssa df nv' (fst (cons_op o (rewritten alF castsF os ret)))).
  { cbn [cons_op fst]. split; [auto|]. split; [auto|]. split; [|exact IH]. destruct o; auto. }
  destruct o as [r a|r a|k b r a l|v x|k r l]; auto; cbn [rewritten].
  - destruct (inb a alF) eqn:Ia; auto. apply inb_In in Ia. unfold rename_all. cbn [fst]. apply (ssa_rename [r] a nv' _ (r :: df) df).
    + exact IH.
    + intros x [<-|[]]. now left.
    + intros x Hx. unfold rename. destruct (inb x [r]) eqn:Ex; [apply U; now left|]. destruct Hx as [<-|Hx]; [|auto]. apply inb_not in Ex. destruct Ex. now left.
    + intros x Hx. now right.
    + auto.
  - destruct (inb x alF) eqn:Ix; auto. unfold rename_all. cbn [fst]. apply (ssa_rename (x :: cast_aliases castsF x) v nv' _ df df); auto.
    + intros y Hy. apply (walk_overwritten v x os ret al av casts df nv Hi Hin Hs0 y Hy).
    + intros y Hy. unfold rename. destruct (inb y _); auto. apply U. now left.
Qed.
(** The results: each is itself, or a value in place of a member of the slice or a copy of one. *)
Lemma walk_ret : forall os ret al av casts df nv, interpret al av casts os ret = Some (alF, castsF) -> inside al av casts df -> (forall x, In x nv' -> In x nv) -> ssa df nv os ->
  (forall x, In x ret -> In x df \/ In x (flat_map defs os)) ->
  exists f, snd (rewritten alF castsF os ret) = map f ret /\ (forall x, In x ret -> In (f x) df \/ In (f x) (flat_map defs (fst (rewritten alF castsF os ret)))) /\
    forall x, f x = x \/ (~ In (f x) nv' /\ (In x alF \/ exists a, In a alF /\ In (CopyVal x a) os)).
Proof.
  induction os as [|o os IH]; intros ret al av casts df nv Hi Hin Hn Hs Hret.
  - exists (fun x => x). cbn [rewritten fst snd flat_map]. split; [symmetry; apply map_id|]. split; auto.
  - destruct (walk_next _ _ _ _ _ _ _ Hi Hin) as (al' & av' & casts' & Hi' & Hin'). assert (Hs0 := Hs). destruct Hs as (U & N & Ty & Hs).
    assert (Hret' : forall x, In x ret -> In x (defs o ++ df) \/ In x (flat_map defs os)) by (intros x Hx; destruct (Hret x Hx) as [H|H]; [left; apply in_or_app; now right|cbn [flat_map] in H; apply in_app_or in H as [H|H]; [left; apply in_or_app; now left|now right]]).
    destruct (IH ret _ _ _ _ nv Hi' Hin' Hn Hs Hret') as (f & Ef & Df & Hf).
    assert (Later : forall x, (In x alF \/ exists a, In a alF /\ In (CopyVal x a) os) -> In x alF \/ exists a, In a alF /\ In (CopyVal x a) (o :: os)) by (intros x [H|(a & H1 & H2)]; [auto|right; exists a; split; [auto|now right]]).
    assert (Keep : let b := cons_op o (rewritten alF castsF os ret) in exists f0, snd b = map f0 ret /\ (forall x, In x ret -> In (f0 x) df \/ In (f0 x) (flat_map defs (fst b))) /\ forall x, f0 x = x \/ (~ In (f0 x) nv' /\ (In x alF \/ exists a, In a alF /\ In (CopyVal x a) (o :: os)))).
    { cbv zeta. exists f. cbn [cons_op fst snd flat_map]. split; [auto|]. split.
      - intros x Hx. rewrite in_app_iff. destruct (Df x Hx) as [H|H]; [apply in_app_or in H as [H|H]; auto|auto].
      - intros x. destruct (Hf x) as [H|[H1 H2]]; [now left|right; split; auto]. }
    assert (Ren : forall A v, (forall x, In x A -> In x (defs o ++ df)) -> (forall x, In x (defs o) -> In x A) -> In v df -> ~ In v nv' -> (forall x, In x A -> In x alF \/ exists a, In a alF /\ In (CopyVal x a) (o :: os)) ->
        let b := rename_all A v (rewritten alF castsF os ret) in exists f0, snd b = map f0 ret /\ (forall x, In x ret -> In (f0 x) df \/ In (f0 x) (flat_map defs (fst b))) /\ forall x, f0 x = x \/ (~ In (f0 x) nv' /\ (In x alF \/ exists a, In a alF /\ In (CopyVal x a) (o :: os)))).
    { intros A v HA Hd Hv Hnv Hal. cbv zeta. exists (fun x => rename A v (f x)). unfold rename_all. cbn [fst snd]. rewrite defs_rename. split; [now rewrite Ef, map_map|]. split.
      - intros x Hx. unfold rename. destruct (inb (f x) A) eqn:EA; [now left|]. apply inb_not in EA. destruct (Df x Hx) as [H|H]; [apply in_app_or in H as [H|H]; [destruct EA; auto|now left]|now right].
      - intros x. unfold rename. destruct (inb (f x) A) eqn:EA.
        + right. split; auto. destruct (Hf x) as [H|[H1 H2]]; [|auto]. rewrite H in EA. apply inb_In in EA. auto.
        + destruct (Hf x) as [H|[H1 H2]]; [now left|right; split; auto]. }
    destruct o as [r a|r a|k b r a l|v x|k r l]; cbn [rewritten]; try exact Keep.
    + destruct (inb a alF) eqn:Ia; [|exact Keep]. apply inb_In in Ia. apply Ren.
      * intros x [<-|[]]. cbn. auto.
      * intros x Hx. exact Hx.
      * apply U. now left.
      * auto.
      * intros x [<-|[]]. right. exists a. split; auto. now left.
    + destruct (inb x alF) eqn:Ix; [|exact Keep]. apply Ren.
      * intros y Hy. apply (walk_overwritten v x os ret al av casts df nv Hi Hin Hs0 y Hy).
      * intros y [].
      * apply U. now left.
      * auto.
      * intros y Hy. left. destruct (walk_overwritten v x os ret al av casts df nv Hi Hin Hs0 y Hy) as [_ [->|H]]; [now apply inb_In|auto].
Qed.
End Walk.

(** * Which values are !torch.tensor afterwards *)
Lemma walk_mem : forall alF castsF o os ret al av casts df nv, interpret al av casts (o :: os) ret = Some (alF, castsF) -> inside al av casts df -> ssa df nv (o :: os) -> forall x, In x df -> (In x alF <-> In x al).
Proof.
  intros alF castsF o os ret al av casts df nv Hi Hin Hs x Hx. destruct (interpret_grows _ _ _ _ _ _ _ Hi) as (na & nc & Ea & Ec & Dna & Dnc). rewrite Ea, in_app_iff. split; [|auto]. intros [H|H]; auto. destruct (ssa_defined _ _ _ x Hs Hx (Dna x H)).
Qed.
Lemma walk_made : forall alF castsF os ret al av casts df nv, interpret al av casts os ret = Some (alF, castsF) -> inside al av casts df -> ssa df nv os ->
  forall x, In x (flat_map made (fst (rewritten alF castsF os ret))) <-> In x (flat_map made os) /\ ~ In x alF.
Proof.
  intros alF castsF. induction os as [|o os IH]; intros ret al av casts df nv Hi Hin Hs x.
  - cbn. tauto.
  - destruct (walk_next _ _ _ _ _ _ _ _ _ Hi Hin) as (al' & av' & casts' & Hi' & Hin'). assert (Mem := walk_mem _ _ _ _ _ _ _ _ _ _ Hi Hin Hs). assert (Hs0 := Hs). destruct Hs as (U & N & Ty & Hs). specialize (IH ret _ _ _ _ nv Hi' Hin' Hs).
    assert (Ren : forall A v, In x (flat_map made (fst (rename_all A v (rewritten alF castsF os ret)))) <-> In x (flat_map made os) /\ ~ In x alF) by (intros A v; unfold rename_all; cbn [fst]; rewrite made_rename; apply IH).
    (* an operation that is kept makes no member *)
    assert (Keep : (forall r, In r (made o) -> ~ In r alF) -> In x (flat_map made (o :: fst (rewritten alF castsF os ret))) <-> In x (flat_map made (o :: os)) /\ ~ In x alF).
    { intros Hk. cbn [flat_map]. rewrite !in_app_iff, IH. specialize (Hk x). tauto. }
    assert (Same : touches al o = false -> forall r, In r (defs o) -> ~ In r alF).
    { intros Ht r Hr Ha. cbn [interpret] in Hi. rewrite Ht in Hi. cbn [negb] in Hi. destruct (interpret_grows _ _ _ _ _ _ _ Hi) as (na & nc & Ea & Ec & Dna & Dnc). rewrite Ea in Ha. apply in_app_or in Ha as [Ha|Ha]; [exact (ssa_def_once _ _ _ _ r Hs0 Hr (Dna r Ha))|exact (N r Hr (proj1 Hin r Ha))]. }
    destruct o as [r a|r a|k b r a l|v y|k r l]; cbn [rewritten].
    + apply Keep. intros r' Hr'. apply Same; [|exact Hr']. cbn [interpret] in Hi. destruct (touches al (CopyTo r a)); [|auto]. cbn [negb] in Hi. destruct (negb (forallb _ _)) in Hi; discriminate.
    + destruct (inb a alF); [rewrite Ren; cbn [flat_map made app]; tauto|]. apply Keep. intros r' [].
    + cbn [cons_op fst]. destruct b; [|cbn [flat_map made app]; apply IH]. destruct (touches alF (View k true r a l)) eqn:Tf.
      * (* a member *)
        assert (Ra : In r alF).
        { assert (To : touches al (View k true r a l) = true) by (apply touches_spec in Tf as (z & Hz & Hz'); apply touches_spec; exists z; split; auto; apply Mem; auto). cbn [interpret] in Hi. rewrite To in Hi. cbn [negb] in Hi. destruct (negb (forallb _ _)) in Hi; [discriminate|].
          destruct (inb a al); [|discriminate]. destruct (interpret_grows _ _ _ _ _ _ _ Hi) as (na & nc & Ea & _). rewrite Ea. apply in_or_app. right. now left. }
        cbn [andb negb flat_map made app]. rewrite IH. split; [intros []; split; [now right|auto]|]. intros [[<-|H] H']; [contradiction|auto].
      * cbn [andb negb]. apply Keep. intros r' Hr'. apply Same; [|exact Hr']. destruct (touches al (View k true r a l)) eqn:To; auto. exfalso. apply touches_spec in To as (z & Hz & Hz'). assert (touches alF (View k true r a l) = true) by (apply touches_spec; exists z; split; auto; apply Mem; auto). congruence.
    + destruct (inb y alF); [rewrite Ren; cbn [flat_map made app]; tauto|]. apply Keep. intros r' [].
    + apply Keep. intros r' [].
Qed.
Lemma walk_member : forall alF castsF os ret r0 al av casts df nv, interpret al av casts os ret = Some (alF, castsF) -> inside al av casts df -> ssa df nv os ->
  forall all, (forall o, In o os -> In o all) -> (forall x, In x al -> member r0 all x) -> forall x, In x alF -> member r0 all x.
Proof.
  intros alF castsF. induction os as [|o os IH]; intros ret r0 al av casts df nv Hi Hin Hs all Hall Hm x Hx.
  - cbn [interpret] in Hi. destruct (forallb _ ret) in Hi; [|discriminate]. injection Hi as -> ->. auto.
  - assert (Hall' : forall o', In o' os -> In o' all) by (intros o' H'; apply Hall; now right). destruct Hs as (U & N & Ty & Hs).
    assert (Keep : forall av', interpret al av' casts os ret = Some (alF, castsF) -> member r0 all x).
    { intros av' H'. eapply (IH ret r0 al av' casts (defs o ++ df) nv H'); eauto. destruct Hin as [I1 I2]. split; auto. intros y Hy. apply in_or_app. auto. }
    assert (Hi0 := Hi). cbn [interpret] in Hi. destruct (negb (touches al o)); [eauto|]. destruct (negb (forallb _ (uses o))); [discriminate|]. destruct o as [r a|r a|k b r a l|v y|k r l]; try discriminate; eauto.
    destruct b; [|eauto]. destruct (inb a al) eqn:Ia; [|discriminate]. apply inb_In in Ia.
    eapply (IH ret r0 (r :: al) _ _ (r :: df) nv Hi); eauto.
    + destruct Hin as [I1 I2]. split; [intros y [<-|Hy]; [now left|right; auto]|]. intros r' a' Hr. destruct k as [|n]; [destruct Hr as [[= <- <-]|Hr]; [split; [now left|now right]|]|]; destruct (I2 _ _ Hr); split; now right.
    + intros y [<-|Hy]; [|auto]. apply (member_view _ _ k r a l); auto. apply Hall. now left.
Qed.
(** Every view of a member is a member. *)
Lemma walk_closed : forall alF castsF os ret al av casts df nv, interpret al av casts os ret = Some (alF, castsF) -> inside al av casts df -> ssa df nv os -> forall k r a l, In (View k true r a l) os -> In a alF -> In r alF.
Proof.
  intros alF castsF. induction os as [|o os IH]; intros ret al av casts df nv Hi Hin Hs k r a l Ho Ha; [destruct Ho|].
  destruct (walk_next _ _ _ _ _ _ _ _ _ Hi Hin) as (al' & av' & casts' & Hi' & Hin'). assert (Mem := walk_mem _ _ _ _ _ _ _ _ _ _ Hi Hin Hs). destruct Hs as (U & N & Ty & Hs). destruct Ho as [->|Ho]; [|eapply IH; eauto].
  assert (Ia : In a al) by (apply Mem; auto; apply U; now left). assert (To : touches al (View k true r a l) = true) by (apply touches_spec; exists a; split; auto; now left).
  cbn [interpret] in Hi. rewrite To in Hi. cbn [negb] in Hi. destruct (negb (forallb _ _)) in Hi; [discriminate|]. rewrite (proj2 (inb_In a al) Ia) in Hi. destruct (interpret_grows _ _ _ _ _ _ _ Hi) as (na & nc & Ea & _). rewrite Ea. apply in_or_app. right. now left.
Qed.
Lemma slice_member : forall alF castsF os ret r0 df nv, interpret [r0] [r0] [] os ret = Some (alF, castsF) -> ssa (r0 :: df) nv os -> forall x, In x alF <-> member r0 os x.
Proof.
  intros alF castsF os ret r0 df nv Hi Hs x. assert (Hin : inside [r0] [r0] [] (r0 :: df)) by (split; [intros y [<-|[]]; now left|intros r a []]). split.
  - intros Hx. eapply (walk_member alF castsF os ret r0 [r0] [r0] [] (r0 :: df) nv Hi Hin Hs); eauto. intros y [<-|[]]. constructor.
  - induction 1 as [|k r a l Ho _ IHm].
    + destruct (interpret_grows _ _ _ _ _ _ _ Hi) as (na & nc & Ea & _). rewrite Ea. apply in_or_app. right. now left.
    + eapply walk_closed; eauto.
Qed.

(** * The whole block *)
Section Block.
Variables (args : list id) (b : block) (pre post : list op) (r0 a0 : id) (al : list id) (casts : list (id * id)).
Hypothesis Hops : ops b = pre ++ CopyTo r0 a0 :: post.
Hypothesis Hwf : well_formed args b.
Hypothesis Hi : interpret [r0] [r0] [] post (ret b) = Some (al, casts).
Let nv := nonvalues (nv_args b) (ops b).
Let df := flat_map defs pre ++ args.
Definition after_ops : list op := pre ++ fst (rename_all [r0] a0 (rewritten al casts post (ret b))).
Definition after_ret : list id := snd (rename_all [r0] a0 (rewritten al casts post (ret b))).
Definition after_nv : list id := nonvalues (nv_args b) after_ops.
Lemma parts : ssa args nv pre /\ In a0 df /\ ~ In r0 df /\ ~ In a0 nv /\ ssa (r0 :: df) nv post.
Proof.
  destruct Hwf as (Hs & _ & _). rewrite Hops in Hs. apply ssa_app in Hs as [S1 (U & N & Ty & S2)]. unfold nv, df. rewrite Hops. split; [auto|]. split; [apply U; now left|]. split; [apply N; now left|]. split; auto.
Qed.
Lemma start_inside : inside [r0] [r0] [] (r0 :: df).
Proof. split; [intros y [<-|[]]; now left|intros r a []]. Qed.
Lemma al_defined : forall x, In x al -> x = r0 \/ In x (flat_map defs post).
Proof. intros x Hx. destruct (interpret_grows _ _ _ _ _ _ _ Hi) as (na & nc & Ea & _ & Dna & _). rewrite Ea in Hx. apply in_app_or in Hx as [Hx|[<-|[]]]; auto. Qed.
Lemma al_new : forall x, In x al -> ~ In x df.
Proof.
  intros x Hx Hd. destruct parts as (_ & _ & N & _ & S2). destruct (al_defined x Hx) as [->|Hp]; [auto|]. apply (ssa_defined _ _ _ x S2); auto. now right.
Qed.
Lemma r0_al : In r0 al.
Proof. destruct (interpret_grows _ _ _ _ _ _ _ Hi) as (na & nc & Ea & _). rewrite Ea. apply in_or_app. right. now left. Qed.
Lemma after_nv_spec : forall x, In x after_nv <-> In x nv /\ ~ In x al.
Proof.
  intros x. destruct parts as (S1 & Ha0 & N & Na & S2). unfold after_nv, after_ops, nv. rewrite Hops, !nonvalues_app. cbn [rename_all fst flat_map made]. rewrite made_rename. rewrite in_app_iff.
  rewrite (walk_made al casts post (ret b) [r0] [r0] [] (r0 :: df) nv Hi start_inside S2).
  assert (Old : In x (nonvalues (nv_args b) pre) -> ~ In x al).
  { rewrite nonvalues_spec. intros H Hx. apply (al_new x Hx). apply in_or_app. destruct H as [H|H]; [right; apply Hwf; auto|left; now apply made_defs]. }
  assert (R0 := r0_al). split.
  - intros [H|[H H']]; [split; auto|split; auto].
  - intros [[H|[H|H]] H']; auto. destruct H as [<-|[]]. contradiction.
Qed.
Lemma after_ssa : ssa args after_nv after_ops.
Proof.
  destruct parts as (S1 & Ha0 & N & Na & S2). unfold after_ops. apply ssa_app. split.
  - eapply ssa_nv; [|exact S1]. intros x Hx. now apply after_nv_spec in Hx.
  - fold df. unfold rename_all. cbn [fst]. apply (ssa_rename [r0] a0 after_nv _ (r0 :: df) df).
    + apply (walk_ssa al casts after_nv) with (al := [r0]) (av := [r0]) (casts := []) (nv := nv); auto.
      * intros x Hx H. apply after_nv_spec in H. tauto.
      * apply start_inside.
      * intros x Hx. now apply after_nv_spec in Hx.
    + intros x [<-|[]]. now left.
    + intros x Hx. unfold rename. destruct (inb x [r0]) eqn:Ex; auto. destruct Hx as [<-|Hx]; auto. apply inb_not in Ex. destruct Ex. now left.
    + intros x Hx. now right.
    + intros H. apply after_nv_spec in H. tauto.
Qed.
Lemma after_ret_spec : exists f, after_ret = map f (ret b) /\ (forall x, In x (ret b) -> In (f x) args \/ In (f x) (flat_map defs after_ops)) /\
    forall x, f x = x /\ ~ In x al \/ (~ In (f x) after_nv /\ (In x al \/ ~ In x nv)).
Proof.
  destruct parts as (S1 & Ha0 & N & Na & S2). assert (Hwf0 := Hwf). destruct Hwf0 as (Hs & Hret & Hnv).
  assert (Hret' : forall x, In x (ret b) -> In x (r0 :: df) \/ In x (flat_map defs post)).
  { intros x Hx. destruct (Hret x Hx) as [H|H]; [|left; right; apply in_or_app; now right]. rewrite Hops, flat_map_app in H. cbn [flat_map defs app] in H. apply in_app_or in H as [H|[<-|H]]; [left; right; apply in_or_app; now left|left; now left|now right]. }
  assert (Nal : forall x, In x al -> ~ In x after_nv) by (intros x Hx H; apply after_nv_spec in H; tauto).
  assert (Hn : forall x, In x after_nv -> In x nv) by (intros x Hx; now apply after_nv_spec in Hx).
  destruct (walk_ret al casts after_nv Nal post (ret b) [r0] [r0] [] (r0 :: df) nv Hi start_inside Hn S2 Hret') as (f & Ef & Df & Hf).
  assert (Na' : ~ In a0 after_nv) by (intros H; apply after_nv_spec in H; tauto).
  (* a copy is not a !torch.tensor *)
  assert (CopyNv : forall x a, In (CopyVal x a) post -> ~ In x nv).
  { intros x a Ho H. unfold nv in H. rewrite nonvalues_spec in H. assert (Hd : In (CopyVal x a) (ops b)) by (rewrite Hops; apply in_or_app; right; now right). destruct H as [H|H].
    - apply (ssa_defined _ _ _ x Hs (Hnv x H)). apply in_flat_map. exists (CopyVal x a). split; [auto|now left].
    - apply in_flat_map in H as (o & Ho' & H). assert (Q : o = CopyVal x a) by (eapply (ssa_unique _ _ _ _ _ x Hs); eauto; [now apply made_def|now left]). subst o. destruct H. }
  exists (fun x => rename [r0] a0 (f x)). unfold after_ret, after_ops, rename_all. cbn [fst snd]. split; [now rewrite Ef, map_map|]. split.
  - intros x Hx. rewrite flat_map_app, defs_rename, in_app_iff. unfold rename. destruct (inb (f x) [r0]) eqn:Ex.
    + unfold df in Ha0. apply in_app_or in Ha0 as [H|H]; auto.
    + apply inb_not in Ex. destruct (Df x Hx) as [[H|H]|H]; [destruct Ex; now left| |auto]. unfold df in H. apply in_app_or in H as [H|H]; auto.
  - intros x. unfold rename. destruct (inb (f x) [r0]) eqn:Ex.
    + right. split; auto. destruct (Hf x) as [H|[H1 [H2|(a & H2 & H3)]]]; [|auto|right; eapply CopyNv; eauto]. rewrite H in Ex. apply inb_In in Ex as [<-|[]]. left. apply r0_al.
    + destruct (Hf x) as [H|[H1 H2]].
      * rewrite H in *. destruct (inb x al) eqn:Ea; [apply inb_In in Ea|apply inb_not in Ea; now left]. right. split; auto.
      * right. split; auto. destruct H2 as [H2|(a & H2 & H3)]; [auto|right; eapply CopyNv; eauto].
Qed.
(** A member is neither defined as a !torch.tensor nor, for the copy, there at all. *)
Lemma after_root : ~ In r0 (flat_map defs after_ops).
Proof.
  destruct parts as (S1 & Ha0 & N & Na & S2). unfold after_ops, rename_all. cbn [fst]. rewrite flat_map_app, defs_rename, in_app_iff. intros [H|H]; [apply N, in_or_app; now left|]. apply rewritten_defs in H. apply (ssa_defined _ _ _ r0 S2); auto. now left.
Qed.

Section Meaning.
Variable C : Type.
Variable get : view -> list C -> C -> C.
Variable put : view -> list C -> C -> C -> C.
Variable shares : view -> list C -> C -> bool.
Variable pure : nat -> list C -> C.
Hypothesis L : laws C get put shares.
Lemma after_meaning : forall e m, start C (nv_args b) e ->
  let s := run C get put shares pure (ops b) (e, m) in let t := run C get put shares pure after_ops (e, m) in
  seen C get s (ret b) = seen C get t after_ret /\ forall n, snd s (Arg n) = snd t (Arg n).
Proof.
  intros e m St. destruct parts as (S1 & Ha0 & N & Na & S2). assert (Hs := proj1 Hwf). fold nv in Hs. rewrite Hops in Hs.
  assert (R0 := start_related C get (nv_args b) nv args e m St (fun x Hx => in_or_app _ _ _ (or_introl Hx))).
  assert (Mk : forall r, In r (flat_map made (ops b)) -> In r nv) by (intros r Hr; apply nonvalues_spec; auto). rewrite Hops, flat_map_app in Mk. cbn [flat_map] in Mk.
  destruct (prefix C get put shares pure nv pre (CopyTo r0 a0 :: post) args e m Hs (fun r Hr => Mk r (in_or_app _ _ _ (or_introl Hr))) R0) as (df' & Sp & Hdf & R1).
  cbv zeta. rewrite Hops. unfold after_ops, after_ret. rewrite !run_app. cbv zeta in R1. destruct (run C get put shares pure pre (e, m)) as [e1 m1]. cbn [fst snd] in R1.
  destruct Sp as (U & Nr & Ty & Sp).
  assert (Mk0 : In r0 nv) by (apply Mk, in_or_app; right; now left).
  assert (R2 := root C get put shares pure nv df' r0 a0 e1 m1 R1 (Nr r0 (or_introl eq_refl)) Mk0 Ty). cbv zeta in R2.
  unfold ValueSemSpec.run at 1 3. cbn [fold_left]. change (fold_left _ post ?s) with (run C get put shares pure post s). destruct (step C get put shares pure (CopyTo r0 a0) (e1, m1)) as [e2 m2] eqn:St2. cbn [fst snd] in R2.
  destruct (simulation C get put shares pure L al casts nv post (ret b) [r0] [r0] [] (r0 :: df') e2 m2 (through C [r0] a0 e1) m1 Hi Sp) as [T1 T2].
  - intros r Hr. apply Mk, in_or_app. right. apply in_or_app. right. exact Hr.
  - intros x _ Hn Ha. destruct (al_defined x Ha) as [->|H]; auto. destruct Hn. now left.
  - exact R2.
  - destruct (seen_rename C get put shares pure [r0] a0 (rewritten al casts post (ret b)) e1 m1) as [U1 U2].
    + intros q Hq. apply rewritten_defs in Hq. split; [intros [<-|[]]; apply (ssa_defined _ _ _ r0 S2); auto; now left|]. intros <-. apply (ssa_defined _ _ _ a0 S2); auto. right. exact Ha0.
    + cbv zeta in T1, T2. split; [rewrite T1; symmetry; exact U1|]. intros n. rewrite T2. now rewrite U2.
Qed.
End Meaning.
End Block.

(** * The copies before the return *)
Lemma copy_to_type_shape : forall n rc nv x os y, copy_to_type n rc nv x = (os, y) -> y = S (S n) /\ (forall r, In r (flat_map defs os) -> n <= r < S (S (S n))) /\ In y (flat_map made os).
Proof. intros n rc nv x os y H. unfold copy_to_type in H. destruct rc, nv; injection H as <- <-; cbn [app flat_map defs made]; (split; [auto|]; split; [cbn [In]; intros r Hr; lia|cbn; auto]). Qed.
Lemma copy_ssa : forall n rc after x os y NV df, copy_to_type n rc (inb x after) x = (os, y) -> In x df -> (forall z, In z df -> z < n) -> (In x NV -> In x after) -> (forall k, n <= k < S (S (S n)) -> In k NV -> In k (flat_map made os)) -> ssa df NV os.
Proof.
  intros n rc after x os y NV df H Hx Hd Hxn Hk. assert (Fr : forall k l, n <= k -> ~ In k l -> ~ In k (l ++ df)) by (intros k l Hk' Hl Hi; apply in_app_or in Hi as [Hi|Hi]; [auto|specialize (Hd k Hi); lia]).
  assert (Fr0 : forall k, n <= k -> ~ In k df) by (intros k Hk'; apply (Fr k []); auto). unfold copy_to_type in H.
  assert (Nx : inb x after = false -> ~ In x NV) by (intros E HN; apply inb_not in E; auto).
  assert (Last : forall z df', In z df' -> ~ In z NV -> ~ In (S (S n)) df' -> ssa df' NV [CopyTo (S (S n)) z]).
  { intros z df' Hz Hn Hf. cbn [ssa uses defs]. split; [intros w [<-|[]]; auto|]. split; [intros w [<-|[]]; auto|]. split; [auto|exact Logic.I]. }
  assert (Mid : forall z df', In z df' -> ~ In (S n) df' -> ~ In (S n) NV -> ~ In (S (S n)) df' -> ssa df' NV [CopyVal (S n) z; CopyTo (S (S n)) (S n)]).
  { intros z df' Hz Hf Hn Hf2. cbn [ssa uses defs]. split; [intros w [<-|[]]; auto|]. split; [intros w [<-|[]]; auto|]. split; [auto|]. apply Last; cbn [app In]; [auto|auto|]. intros [Q|Q]; [lia|auto]. }
  assert (Cast : forall nv tl, ssa ([n] ++ df) NV tl -> ssa df NV (View StaticInfoCast nv n x [] :: tl)).
  { intros nv tl Ht. cbn [ssa uses defs]. split; [intros w [<-|[]]; auto|]. split; [intros w [<-|[]]; auto|]. split; auto. }
  destruct rc; destruct (inb x after) eqn:Ia; injection H as <- _; cbn [app flat_map made] in Hk |- *.
  - apply Cast, Mid.
    + now left.
    + apply (Fr _ [n]); [lia|]. cbn. lia.
    + intros HN. apply Hk in HN; [|lia]. cbn in HN. lia.
    + apply (Fr _ [n]); [lia|]. cbn. lia.
  - apply Cast, Last.
    + now left.
    + intros HN. apply Hk in HN; [|lia]. cbn in HN. lia.
    + apply (Fr _ [n]); [lia|]. cbn. lia.
  - apply Mid; auto. intros HN. apply Hk in HN; [|lia]. cbn in HN. lia.
  - apply Last; auto.
Qed.
Lemma restore_ssa : forall rc after before ret n os ys, restore rc n before after ret = (os, ys) -> length before = length ret ->
  (forall r, In r (flat_map defs os) -> n <= r) /\ length ys = length ret /\
  forall NV df, (forall x, In x ret -> In x df) -> (forall x, In x df -> x < n) -> (forall x, In x ret -> In x NV -> In x after) -> (forall k, n <= k -> In k NV -> In k (flat_map made os)) ->
  ssa df NV os /\ (forall y, In y ys -> In y df \/ In y (flat_map defs os)) /\
  ((forall x, In x (flat_map made os) -> In x NV) -> (forall b x, In (b, x) (combine before ret) -> b = false -> ~ In x after) -> map (fun y => inb y NV) ys = before).
Proof.
  intros rc after. induction before as [|b before IH]; intros ret n os ys H Hl.
  - destruct ret; [|discriminate]. cbn [restore] in H. injection H as <- <-. split; [intros r []|]. split; [auto|]. intros NV df Hr Hd Hn Hk. split; [exact Logic.I|]. split; [intros y []|]. reflexivity.
  - destruct ret as [|x ret]; [discriminate|]. injection Hl as Hl. cbn [restore] in H. destruct b.
    + destruct (copy_to_type n (rc x) (inb x after) x) as [o1 y] eqn:Hc. destruct (restore rc (S (S (S n))) before after ret) as [o2 ys2] eqn:Hrest. injection H as <- <-.
      destruct (copy_to_type_shape _ _ _ _ _ _ Hc) as (Hy & Hb & Hm). destruct (IH ret _ _ _ Hrest Hl) as (Ge & Hlen & Rest). rewrite !flat_map_app. split; [intros r Hr; apply in_app_or in Hr as [Hr|Hr]; [apply Hb in Hr|apply Ge in Hr]; lia|].
      split; [cbn [length]; now rewrite Hlen|]. intros NV df Hr Hd Hn Hk.
      assert (S1 : ssa df NV o1).
      { apply (copy_ssa n (rc x) after x o1 y NV df Hc); auto; [apply Hr; now left|apply Hn; now left|]. intros k Hk' HN. destruct (in_app_or _ _ _ (Hk k (proj1 Hk') HN)) as [H|H]; auto. apply made_defs, Ge in H. lia. }
      destruct (Rest NV (flat_map defs o1 ++ df)) as (S2 & Y2 & T2).
      { intros z Hz. apply in_or_app. right. apply Hr. now right. }
      { intros z Hz. apply in_app_or in Hz as [Hz|Hz]; [apply Hb in Hz|specialize (Hd z Hz)]; lia. }
      { intros z Hz. apply Hn. now right. }
      { intros k Hk' HN. destruct (in_app_or _ _ _ (Hk k ltac:(lia) HN)) as [H|H]; auto. apply made_defs, Hb in H. lia. }
      split; [apply ssa_app; split; auto|]. split.
      * intros z [<-|Hz]; [right; apply in_or_app; left; now apply made_defs|]. destruct (Y2 z Hz) as [H|H]; [apply in_app_or in H as [H|H]; [right; apply in_or_app; now left|now left]|right; apply in_or_app; now right].
      * intros Hsub Hf. cbn [map]. f_equal.
        -- apply inb_In, Hsub, in_or_app. now left.
        -- apply T2; [intros z Hz; apply Hsub, in_or_app; now right|]. intros b z Hz. apply Hf. now right.
    + destruct (restore rc n before after ret) as [o2 ys2] eqn:Hrest. injection H as <- <-. destruct (IH ret _ _ _ Hrest Hl) as (Ge & Hlen & Rest). split; [auto|]. split; [cbn [length]; now rewrite Hlen|].
      intros NV df Hr Hd Hn Hk. destruct (Rest NV df) as (S2 & Y2 & T2); auto; [intros z Hz; apply Hr; now right|intros z Hz; apply Hn; now right|]. split; [auto|]. split.
      * intros z [<-|Hz]; [left; apply Hr; now left|auto].
      * intros Hsub Hf. cbn [map]. f_equal.
        -- apply inb_not. intros HN. apply (Hf false x (or_introl eq_refl) eq_refl). apply Hn; auto. now left.
        -- apply T2; auto. intros b z Hz. apply Hf. now right.
Qed.
