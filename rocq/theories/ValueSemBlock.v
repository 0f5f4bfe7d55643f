(** Lemmas for C103 and C104: blocks before and after a rewriting. *)
From Coq Require Import Arith Lia List Bool.
From Verif Require Import Prelude ValueSemModel ValueSemSpec ValueSemProofs ValueSemSim ValueSemTyping ValueSemApplies.
Import ListNotations.
Open Scope nat_scope.

(** A rewriting: the walk, the rewritten operations, and copies for some of the results. *)
Definition outcome (recast : id -> bool) (fresh : id) (pre post : list op) (r0 a0 : id) (al : list id) (casts : list (id * id)) (before : list bool) (b b' : block) : Prop :=
  exists os ys, restore recast fresh before (after_nv b pre post r0 a0 al casts) (after_ret b post r0 a0 al casts) = (os, ys) /\ nv_args b' = nv_args b /\ ops b' = after_ops b pre post r0 a0 al casts ++ os /\ ret b' = ys.
Lemma shape : forall b pre post r0 a0 al casts args, ops b = pre ++ CopyTo r0 a0 :: post -> well_formed args b -> interpret [r0] [r0] [] post (ret b) = Some (al, casts) ->
  let '(os1, ret1) := drop_overwrites al casts post (ret b) in let '(os2, ret2) := drop_copies (r0 :: copy_results al post) (CopyTo r0 a0 :: os1) ret1 in
  pre ++ map (value_view (view_results al post)) os2 = after_ops b pre post r0 a0 al casts /\ ret2 = after_ret b post r0 a0 al casts.
Proof.
  intros b pre post r0 a0 al casts args Hops Hwf Hi. destruct (parts args b pre post r0 a0 Hops Hwf) as (S1 & Ha0 & N & Na & S2).
  assert (P := phases_all r0 al casts post (ret b) [r0] [r0] [] (r0 :: flat_map defs pre ++ args) _ Hi S2 (or_introl eq_refl)).
  destruct (drop_overwrites al casts post (ret b)) as [os1 ret1]. cbn [drop_copies]. assert (E : inb r0 (r0 :: copy_results al post) = true) by (apply inb_In; now left). rewrite E.
  assert (P' := P (proj1 (start_inside args pre r0)) (fun r a H => match H with end)). clear P. unfold after_ops, after_ret. rewrite <- P', <- flags_rename. destruct (drop_copies (r0 :: copy_results al post) os1 ret1) as [os2 ret2]. split; reflexivity.
Qed.
Lemma no_restore : forall rc n after ret, restore rc n [] after ret = ([], ret).
Proof. reflexivity. Qed.
Lemma rewrite_outcome : forall recast fresh r0 b b' args, well_formed args b -> rewrite recast fresh r0 b = Some b' ->
  exists pre a0 post al casts before, ops b = pre ++ CopyTo r0 a0 :: post /\ interpret [r0] [r0] [] post (ret b) = Some (al, casts) /\ outcome recast fresh pre post r0 a0 al casts before b b' /\
    (before = tensors b \/ before = [] /\ forall x, In x (ret b) -> ~ In x al).
Proof.
  intros recast fresh r0 b b' args Hwf H. unfold rewrite in H. destruct (split_at r0 (ops b)) as [[[pre a0] post]|] eqn:Hsp; [|discriminate]. cbn [obind] in H. apply split_at_spec in Hsp. destruct (negb (existsb (touches [r0]) post) && inb r0 (ret b)); [discriminate|].
  destruct (interpret [r0] [r0] [] post (ret b)) as [[al casts]|] eqn:Hi; [|discriminate]. cbn [obind] in H. assert (Sh := shape b pre post r0 a0 al casts args Hsp Hwf Hi).
  destruct (drop_overwrites al casts post (ret b)) as [os1 ret1]. destruct (drop_copies (r0 :: copy_results al post) (CopyTo r0 a0 :: os1) ret1) as [os2 ret2]. destruct Sh as [E1 E2]. rewrite E1, E2 in H.
  destruct (existsb (fun x => inb x al) (ret b)) eqn:Ex.
  - destruct (restore recast fresh _ _ _) as [os4 ret4] eqn:Hr. injection H as <-. exists pre, a0, post, al, casts, (tensors b). split; [auto|]. split; [auto|]. split; [|now left]. exists os4, ret4. split; [exact Hr|]. auto.
  - injection H as <-. exists pre, a0, post, al, casts, []. split; [auto|]. split; [auto|]. split; [exists [], (after_ret b post r0 a0 al casts); rewrite app_nil_r; auto|]. right. split; auto. intros x Hx Ha. assert (Q : existsb (fun x => inb x al) (ret b) = true) by (apply existsb_exists; exists x; split; auto; now apply inb_In). congruence.
Qed.

Section Outcome.
Variables (args : list id) (recast : id -> bool) (fresh : id) (pre post : list op) (r0 a0 : id) (al : list id) (casts : list (id * id)) (before : list bool) (b b' : block).
Hypothesis Hops : ops b = pre ++ CopyTo r0 a0 :: post.
Hypothesis Hwf : well_formed args b.
Hypothesis Hi : interpret [r0] [r0] [] post (ret b) = Some (al, casts).
Hypothesis Hun : unused fresh b.
Hypothesis Hout : outcome recast fresh pre post r0 a0 al casts before b b'.
Lemma below_defs : forall r, In r (flat_map defs (after_ops b pre post r0 a0 al casts)) -> In r (flat_map defs (ops b)).
Proof.
  intros r. unfold after_ops, rename_all. cbn [fst]. rewrite Hops, !flat_map_app, defs_rename, !in_app_iff. cbn [flat_map defs app]. intros [H|H]; [auto|]. right. right. eapply rewritten_defs; eauto.
Qed.
Lemma below_ret : forall x, In x (after_ret b post r0 a0 al casts) -> In x (ret b) \/ In x (flat_map uses (ops b)).
Proof.
  intros x H. unfold after_ret, rename_all in H. cbn [snd] in H. apply in_map_iff in H as (y & <- & Hy). rewrite Hops, flat_map_app, in_app_iff. cbn [flat_map uses app]. unfold rename. destruct (inb y [r0]); [right; right; now left|].
  apply rewritten_ret in Hy as [Hy|Hy]; [auto|right; right; now right].
Qed.
Lemma outcome_meaning : forall C get put shares pure, laws C get put shares -> forall e m, start C (nv_args b) e ->
  results C get put shares pure b' e m = results C get put shares pure b e m /\ forall n, effects C get put shares pure b' e m n = effects C get put shares pure b e m n.
Proof.
  intros C get put shares pure L e m St. destruct Hout as (os & ys & Hr & Ha & Ho & Hy). destruct (after_meaning args b pre post r0 a0 al casts Hops Hwf Hi C get put shares pure L e m St) as [M1 M2].
  unfold results, effects. rewrite Ho, Hy, run_app. cbv zeta in M1, M2.
  assert (B : bounded C fresh (fst (run C get put shares pure (after_ops b pre post r0 a0 al casts) (e, m)))).
  { apply bounded_run.
    - intros x s p Ex. specialize (St x). rewrite Ex in St. destruct St as [_ (n & Hn)]. discriminate.
    - intros r Hr'. apply Hun. right. right. left. now apply below_defs. }
  destruct (run C get put shares pure (after_ops b pre post r0 a0 al casts) (e, m)) as [e1 m1]. destruct (run C get put shares pure (ops b) (e, m)) as [e0 m0]. cbn [fst snd] in *.
  destruct (restored C get put shares pure L recast _ before _ fresh os ys e1 m1 Hr B) as [K1 K2].
  - intros x Hx. apply Hun. apply below_ret in Hx. tauto.
  - cbv zeta in K1, K2. destruct (run C get put shares pure os (e1, m1)) as [e2 m2]. cbn [fst snd] in *. split; [rewrite K2; symmetry; exact M1|]. intros n. destruct K1 as [_ K1]. rewrite K1 by discriminate. symmetry. apply M2.
Qed.
Hypothesis Hargs : forall x, In x args -> x < fresh.
Hypothesis Hbefore : before = tensors b \/ before = [] /\ forall x, In x (ret b) -> ~ In x al.
Lemma outcome_nv : forall x, x < fresh -> (In x (nonvalues (nv_args b') (ops b')) <-> In x (nonvalues (nv_args b) (ops b)) /\ ~ In x al).
Proof.
  intros x Hx. destruct Hout as (os & ys & Hr & Ha & Ho & Hy). rewrite Ha, Ho, nonvalues_app. fold (after_nv b pre post r0 a0 al casts). rewrite <- (after_nv_spec args b pre post r0 a0 al casts Hops Hwf Hi). split; [|auto]. intros [H|H]; auto. exfalso.
  assert (G : forall r, In r (flat_map defs os) -> fresh <= r).
  { destruct (Nat.eq_dec (length before) (length (after_ret b post r0 a0 al casts))) as [El|Nl].
    - destruct (restore_ssa _ _ _ _ _ _ _ Hr El) as [G _]. exact G.
    - destruct Hbefore as [->|[-> _]].
      + destruct Nl. destruct (after_ret_spec args b pre post r0 a0 al casts Hops Hwf Hi) as (f & Ef & _). rewrite Ef. unfold tensors. now rewrite !map_length.
      + rewrite no_restore in Hr. injection Hr as <- <-. intros r []. }
  apply made_defs, G in H. lia.
Qed.
Lemma outcome_well_formed : well_formed args b' /\ nv_args b' = nv_args b /\ tensors b' = tensors b.
Proof.
  destruct Hout as (os & ys & Hr & Ha & Ho & Hy). assert (Sa := after_ssa args b pre post r0 a0 al casts Hops Hwf Hi). destruct (after_ret_spec args b pre post r0 a0 al casts Hops Hwf Hi) as (f & Ef & Df & Hf). assert (Nv := after_nv_spec args b pre post r0 a0 al casts Hops Hwf Hi).
  set (os3 := after_ops b pre post r0 a0 al casts) in *. set (nv3 := after_nv b pre post r0 a0 al casts) in *. set (ret3 := after_ret b post r0 a0 al casts) in *.
  assert (Hwf0 := Hwf). destruct Hwf0 as (Hs & Hret & Hna).
  assert (Low : forall x, In x (flat_map defs os3 ++ args) -> x < fresh) by (intros x Hx; apply in_app_or in Hx as [Hx|Hx]; [apply Hun; right; right; left; now apply below_defs|auto]).
  assert (Def3 : forall x, In x ret3 -> In x (flat_map defs os3 ++ args)) by (intros x Hx; rewrite Ef in Hx; apply in_map_iff in Hx as (z & <- & Hz); apply in_or_app; destruct (Df z Hz); auto).
  destruct Hbefore as [Eb|[Eb Hno]].
  - assert (El : length before = length ret3) by (rewrite Eb, Ef; unfold tensors; now rewrite !map_length). destruct (restore_ssa _ _ _ _ _ _ _ Hr El) as (Ge & Hlen & R).
    assert (NVb : forall x, In x (nonvalues (nv_args b') (ops b')) <-> In x nv3 \/ In x (flat_map made os)) by (intros x; rewrite Ha, Ho, nonvalues_app; unfold nv3, after_nv, os3; tauto).
    destruct (R (nonvalues (nv_args b') (ops b')) (flat_map defs os3 ++ args)) as (S4 & Y4 & T4); auto.
    + intros x Hx HN. apply NVb in HN as [HN|HN]; auto. apply made_defs, Ge in HN. specialize (Low x (Def3 x Hx)). lia.
    + intros k Hk HN. apply NVb in HN as [HN|HN]; auto. apply Nv in HN as [HN _]. apply nonvalues_spec in HN as [HN|HN]; [assert (k < fresh) by auto; lia|]. apply made_defs in HN. assert (k < fresh) by (apply Hun; auto). lia.
    + split; [|split; [auto|]].
      * split; [|split].
        -- rewrite Ho at 2. apply ssa_app. split; [|exact S4]. 
           (* among the old operations the new !torch.tensor are not used *)
           assert (Ext : forall os0 df NV NV', (forall x, x < fresh -> In x NV' -> In x NV) -> (forall x, In x (flat_map uses os0) -> x < fresh) -> ssa df NV os0 -> ssa df NV' os0).
           { induction os0 as [|o os0 IH]; intros df NV NV' Hsub Hu Hss; [exact Logic.I|]. destruct Hss as (U & N & Ty & Hss). cbn [flat_map] in Hu. split; [auto|]. split; [auto|]. split; [|eapply IH; eauto; intros x Hx; apply Hu, in_or_app; now right].
             destruct o; auto; (intros Q; apply Ty, Hsub; [apply Hu, in_or_app; left; now left|exact Q]). }
           apply (Ext os3 args nv3); auto.
           ++ intros x Hx HN. apply NVb in HN as [HN|HN]; auto. apply made_defs, Ge in HN. lia.
           ++ assert (Use : forall os0 df NV, ssa df NV os0 -> forall x, In x (flat_map uses os0) -> In x (flat_map defs os0 ++ df)).
              { induction os0 as [|o os0 IH]; intros df NV Hss x Hx; [destruct Hx|]. destruct Hss as (U & N & Ty & Hss). cbn [flat_map] in *. apply in_app_or in Hx as [Hx|Hx]; [apply in_or_app; right; auto|]. specialize (IH _ _ Hss x Hx). rewrite !in_app_iff in *. tauto. }
              intros x Hx. apply Low. eapply Use; eauto.
        -- intros x Hx. rewrite Hy in Hx. rewrite Ho, flat_map_app, in_app_iff. destruct (Y4 x Hx) as [H|H]; [apply in_app_or in H as [H|H]; auto|auto].
        -- rewrite Ha. exact Hna.
      * unfold tensors at 1. rewrite Hy, T4; auto.
        -- intros x Hx. apply NVb. auto.
        -- intros bb x Hx -> HN. rewrite Eb, Ef in Hx. unfold tensors in Hx.
           assert (Q : forall l, In (false, x) (combine (map (fun x => inb x (nonvalues (nv_args b) (ops b))) l) (map f l)) -> exists z, In z l /\ inb z (nonvalues (nv_args b) (ops b)) = false /\ x = f z).
           { induction l as [|z l IH]; intros Hl; [destruct Hl|]. destruct Hl as [Hl|Hl]; [injection Hl as E1 E2; exists z; split; [now left|auto]|]. destruct (IH Hl) as (w & H1 & H2). exists w. split; [now right|auto]. }
           destruct (Q _ Hx) as (z & Hz & Ez & ->). apply inb_not in Ez. destruct (Hf z) as [[E _]|[E _]]; [|auto]. rewrite E in HN. apply Nv in HN. tauto.
  - rewrite Eb, no_restore in Hr. injection Hr as <- <-. rewrite app_nil_r in Ho.
    assert (Nb : nonvalues (nv_args b') (ops b') = nv3) by (rewrite Ha, Ho; reflexivity). split; [|split; [auto|]].
    + split; [rewrite Nb, Ho; exact Sa|]. split; [|rewrite Ha; exact Hna]. intros x Hx. rewrite Hy in Hx. rewrite Ho. specialize (Def3 x Hx). apply in_app_or in Def3. tauto.
    + unfold tensors. rewrite Nb, Hy, Ef, map_map. apply map_ext_in. intros x Hx. apply bool_iff. rewrite !inb_In. destruct (Hf x) as [[-> Hna']|[H1 [H2|H2]]].
      * rewrite Nv. tauto.
      * destruct (Hno x Hx H2).
      * tauto.
Qed.
End Outcome.

(** * The second pattern *)
Lemma view_tree_spec : forall post reach0 reach, view_tree reach0 post = Some reach -> exists new, reach = new ++ reach0 /\ (forall x, In x new -> In x (flat_map defs post)).
Proof.
  induction post as [|o post IH]; intros reach0 reach H; cbn [view_tree] in H; [injection H as <-; exists []; split; [auto|intros x []]|].
  assert (Keep : view_tree reach0 post = Some reach -> exists new, reach = new ++ reach0 /\ (forall x, In x new -> In x (flat_map defs (o :: post)))) by (intros H'; destruct (IH _ _ H') as (new & E & D); exists new; split; auto; intros x Hx; cbn [flat_map]; apply in_or_app; auto).
  destruct (negb (touches reach0 o)); auto. destruct o as [r a|r a|k nv r a l|v x|k r l]; try discriminate; auto. destruct (IH _ _ H) as (new & E & D). exists (new ++ [r]). rewrite <- app_assoc. split; [auto|]. intros x Hx. cbn [flat_map defs app]. apply in_app_or in Hx as [Hx|[<-|[]]]; [right; auto|now left].
Qed.
Lemma view_tree_touched : forall post df nv reach0 reach, view_tree reach0 post = Some reach -> ssa df nv post -> (forall x, In x reach0 -> In x df) ->
  forall o x, In o post -> In x (uses o) -> In x reach -> match o with CopyVal _ _ => True | View _ _ r _ _ => In r reach | _ => False end.
Proof.
  induction post as [|o' post IH]; intros df nv reach0 reach H Hs Hd o x Ho Hx Hr; [destruct Ho|]. assert (Hs0 := Hs). destruct Hs as (U & N & Ty & Hs).
  assert (Mem : forall z, In z df -> In z reach -> In z reach0).
  { intros z Hz Hzr. destruct (view_tree_spec _ _ _ H) as (new & E & D). rewrite E in Hzr. apply in_app_or in Hzr as [Hzr|Hzr]; auto. destruct (ssa_defined _ _ _ z Hs0 Hz (D z Hzr)). }
  destruct Ho as [->|Ho].
  - assert (To : touches reach0 o = true) by (apply touches_spec; exists x; split; auto). cbn [view_tree] in H. rewrite To in H. cbn [negb] in H. destruct o as [r a|r a|k b r a l|v y|k r l]; try discriminate; auto. destruct (view_tree_spec _ _ _ H) as (new & E & D). rewrite E. apply in_or_app. right. now left.
  - cbn [view_tree] in H. assert (Hd' : forall z, In z reach0 -> In z (defs o' ++ df)) by (intros z Hz; apply in_or_app; auto). destruct (negb (touches reach0 o')); [eapply IH; eauto|]. destruct o' as [r a|r a|k b r a l|v y|k r l]; try discriminate; [eapply IH; eauto|].
    eapply (IH _ _ (r :: reach0)); eauto. intros z [<-|Hz]; [now left|]. right. auto.
Qed.
Lemma view_tree_member : forall r0 all post df nv reach0 reach, view_tree reach0 post = Some reach -> ssa df nv post -> (forall o, In o post -> In o all) -> (forall x, In x reach0 -> member r0 all x) ->
  (forall k b r a l x, In (View k b r a l) all -> In x (a :: l) -> member r0 all x -> b = true /\ member r0 all a) -> forall x, In x reach -> member r0 all x.
Proof.
  intros r0 all. induction post as [|o post IH]; intros df nv reach0 reach H Hs Hall Hm Hv x Hx; [cbn [view_tree] in H; injection H as <-; auto|]. destruct Hs as (U & N & Ty & Hs). assert (Hall' : forall o', In o' post -> In o' all) by (intros o' H'; apply Hall; now right).
  cbn [view_tree] in H. destruct (touches reach0 o) eqn:To; cbn [negb] in H; [|eapply IH; eauto]. destruct o as [r a|r a|k b r a l|v y|k r l]; try discriminate; [eapply IH; eauto|]. apply touches_spec in To as (z & Hz & Hz').
  destruct (Hv k b r a l z (Hall _ (or_introl eq_refl)) Hz (Hm z Hz')) as [-> Ha]. eapply (IH _ _ (r :: reach0)); eauto. intros w [<-|Hw]; auto. apply (member_view _ _ k r a l); auto. apply Hall. now left.
Qed.
Lemma touches_ext : forall A B o, (forall x, inb x A = inb x B) -> touches A o = touches B o.
Proof. intros A B o H. unfold touches. induction (uses o) as [|x l IH]; [reflexivity|]. cbn [existsb]. now rewrite H, IH. Qed.
Lemma drop_none : forall al casts post ret, (forall v x, In (Overwrite v x) post -> ~ In x al) -> drop_overwrites al casts post ret = (post, ret).
Proof.
  induction post as [|o post IH]; intros ret H; [reflexivity|]. assert (E := IH ret (fun v x Hx => H v x (or_intror Hx))). destruct o as [r a|r a|k b r a l|v y|k r l]; cbn [drop_overwrites]; rewrite E; try reflexivity. now rewrite (proj2 (inb_not y al) (H v y (or_introl eq_refl))).
Qed.
Lemma views_outcome : forall recast fresh r0 b b' args, well_formed args b -> rewrite_views recast fresh r0 b = Some b' ->
  (forall pre a0 post, ops b = pre ++ CopyTo r0 a0 :: post -> forall k nv r a l x, In (View k nv r a l) post -> In x (a :: l) -> member r0 post x -> nv = true /\ member r0 post a) ->
  exists pre a0 post al casts before, ops b = pre ++ CopyTo r0 a0 :: post /\ interpret [r0] [r0] [] post (ret b) = Some (al, casts) /\ outcome recast fresh pre post r0 a0 al casts before b b'.
Proof.
  intros recast fresh r0 b b' args Hwf H Hv. unfold rewrite_views in H. destruct (split_at r0 (ops b)) as [[[pre a0] post]|] eqn:Hsp; [|discriminate]. cbn [obind] in H. apply split_at_spec in Hsp. specialize (Hv pre a0 post Hsp).
  destruct (view_tree [r0] post) as [reach|] eqn:Hvt; [|discriminate]. cbn [obind] in H. destruct (parts args b pre post r0 a0 Hsp Hwf) as (S1 & Ha0 & N & Na & S2).
  assert (Hm : forall x, In x reach -> member r0 post x) by (eapply view_tree_member; eauto; intros x [<-|[]]; constructor).
  assert (Ht := view_tree_touched _ _ _ _ _ Hvt S2 (proj1 (start_inside args pre r0))).
  assert (Hm' : forall x, member r0 post x -> In x reach).
  { intros x Hx. induction Hx as [|k r a l Ho _ IHm]; [destruct (view_tree_spec _ _ _ Hvt) as (new & E & _); rewrite E; apply in_or_app; right; now left|]. exact (Ht (View k true r a l) a Ho (or_introl eq_refl) IHm). }
  assert (Hh : handled r0 post (ret b)).
  { split.
    - intros o x Ho Hx Hmx. assert (Q := Ht o x Ho Hx (Hm' x Hmx)). destruct o as [r a|r a|k nv r a l|v y|k r l]; auto. intros _. eapply Hv; eauto.
    - intros p1 v x p2 y Hp Hmx. exfalso. apply (Ht (Overwrite v x) x); auto; [rewrite Hp; apply in_or_app; right; now left|right; now left]. }
  assert (Mk : forall r, In r (flat_map made (CopyTo r0 a0 :: post)) -> In r (nonvalues (nv_args b) (ops b))) by (intros r Hr; rewrite Hsp, nonvalues_app; auto).
  destruct (forward_all r0 post (ret b) (nonvalues (nv_args b) (ops b)) _ S2) as ([al casts] & Hi); auto; [apply Mk; now left|intros r Hr; apply Mk; cbn [flat_map made app]; now right|].
  assert (Mem := slice_member _ _ _ _ _ _ _ Hi S2). assert (Eq : forall x, inb x reach = inb x al) by (intros x; apply bool_iff; rewrite !inb_In, Mem; split; auto).
  assert (Ec : copy_results reach post = copy_results al post) by (unfold copy_results; apply flat_map_ext; intros o; destruct o; auto; now rewrite Eq).
  assert (Ev : view_results reach post = view_results al post) by (unfold view_results; apply flat_map_ext; intros o; destruct o; auto; rewrite (touches_ext reach al); auto).
  rewrite Ec, Ev in H. match type of H with (if ?c then _ else _) = _ => destruct c; [discriminate|] end.
  assert (Sh := shape b pre post r0 a0 al casts args Hsp Hwf Hi). rewrite drop_none in Sh by (intros v x Ho Hx; apply (Ht (Overwrite v x) x); auto; [right; now left|apply Hm', Mem, Hx]).
  destruct (drop_copies (r0 :: copy_results al post) (CopyTo r0 a0 :: post) (ret b)) as [os2 ret2]. destruct Sh as [E1 E2]. rewrite E1, E2 in H. destruct (existsb (fun x => inb x reach) (ret b)).
  - match type of H with (let '(_, _) := restore _ _ ?bf _ _ in _) = _ => destruct (restore recast fresh bf (nonvalues (nv_args b) (after_ops b pre post r0 a0 al casts)) (after_ret b post r0 a0 al casts)) as [os4 ret4] eqn:Hr; exists pre, a0, post, al, casts, bf end.
    injection H as <-. split; [auto|]. split; [auto|]. exists os4, ret4. auto.
  - injection H as <-. exists pre, a0, post, al, casts, []. split; [auto|]. split; [auto|]. exists [], (after_ret b post r0 a0 al casts). rewrite app_nil_r. auto.
Qed.
