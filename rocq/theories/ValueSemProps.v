(** C103, C104: tensors that are mutated become values. *)
From Coq Require Import Arith Lia List Bool.
From Verif Require Import Prelude ValueSemModel ValueSemSpec ValueSemProofs ValueSemSim ValueSemTyping ValueSemApplies ValueSemBlock.
Import ListNotations.
Open Scope nat_scope.

(** * C103: slices of one block *)
Theorem C103_rewriting_preserves_results_and_effects : forall C get put shares pure recast fresh r0 b b' args e m,
  laws C get put shares -> well_formed args b -> unused fresh b -> start C (nv_args b) e -> rewrite recast fresh r0 b = Some b' ->
  results C get put shares pure b' e m = results C get put shares pure b e m /\ forall n, effects C get put shares pure b' e m n = effects C get put shares pure b e m n.
Proof.
  intros C get put shares pure recast fresh r0 b b' args e m L Hwf Hun St H. destruct (rewrite_outcome _ _ _ _ _ _ Hwf H) as (pre & a0 & post & al & casts & before & Hops & Hi & Hout & _).
  eapply outcome_meaning; eauto.
Qed.
(** The rewritten block is well formed, and its results are of the same kinds. *)
Theorem C103_rewriting_keeps_well_formed : forall recast fresh r0 b b' args, well_formed args b -> unused fresh b -> (forall x, In x args -> x < fresh) -> rewrite recast fresh r0 b = Some b' ->
  well_formed args b' /\ nv_args b' = nv_args b /\ tensors b' = tensors b.
Proof.
  intros recast fresh r0 b b' args Hwf Hun Ha H. destruct (rewrite_outcome _ _ _ _ _ _ Hwf H) as (pre & a0 & post & al & casts & before & Hops & Hi & Hout & Hb). eapply outcome_well_formed; eauto.
Qed.
(** Any number of rewritings. *)
Theorem C103_rewritings_preserve_results_and_effects : forall C get put shares pure b b' args, laws C get put shares -> well_formed args b -> rewrites args b b' ->
  well_formed args b' /\ tensors b' = tensors b /\ forall e m, start C (nv_args b) e ->
  results C get put shares pure b' e m = results C get put shares pure b e m /\ forall n, effects C get put shares pure b' e m n = effects C get put shares pure b e m n.
Proof.
  intros C get put shares pure b b' args L Hwf H. induction H as [b|recast fresh r0 b b1 b2 Hun Ha Hr _ IH]; [auto|].
  destruct (C103_rewriting_keeps_well_formed _ _ _ _ _ _ Hwf Hun Ha Hr) as (Hwf1 & Hnv & Ht). destruct (IH Hwf1) as (Hwf2 & Ht2 & Hm). split; [auto|]. split; [congruence|]. intros e m St.
  destruct (C103_rewriting_preserves_results_and_effects C get put shares pure _ _ _ _ _ args e m L Hwf Hun St Hr) as [R1 R2]. rewrite Hnv in Hm. destruct (Hm e m St) as [M1 M2]. split; [congruence|]. intros n. rewrite M2. apply R2.
Qed.
(** The members of the slice are values afterwards, other tensors stay as they are, and the copy is gone. *)
Theorem C103_members_become_values : forall recast fresh r0 b b' args pre a0 post, well_formed args b -> unused fresh b -> (forall x, In x args -> x < fresh) -> ops b = pre ++ CopyTo r0 a0 :: post -> rewrite recast fresh r0 b = Some b' ->
  (forall x, x < fresh -> (In x (nonvalues (nv_args b') (ops b')) <-> In x (nonvalues (nv_args b) (ops b)) /\ ~ member r0 post x)) /\ ~ In r0 (flat_map defs (ops b')).
Proof.
  intros recast fresh r0 b b' args pre a0 post Hwf Hun Ha Hops H. destruct (rewrite_outcome _ _ _ _ _ _ Hwf H) as (pre' & a0' & post' & al & casts & before & Hops' & Hi & Hout & Hb).
  assert (Same : pre' = pre /\ a0' = a0 /\ post' = post).
  { destruct (parts args b pre post r0 a0 Hops Hwf) as (_ & _ & N & _ & _). destruct (parts args b pre' post' r0 a0' Hops' Hwf) as (_ & _ & N' & _ & _). rewrite in_app_iff in N, N'.
    assert (E1 := split_at_complete r0 pre a0 post ltac:(tauto)). assert (E2 := split_at_complete r0 pre' a0' post' ltac:(tauto)). rewrite <- Hops in E1. rewrite <- Hops' in E2. rewrite E1 in E2. injection E2 as -> -> ->. auto. }
  destruct Same as (-> & -> & ->). destruct (parts args b pre post r0 a0 Hops Hwf) as (_ & _ & _ & _ & S2). assert (Mem := slice_member _ _ _ _ _ _ _ Hi S2). split.
  - intros x Hx. rewrite (outcome_nv args recast fresh pre post r0 a0 al casts before b b' Hops Hwf Hi Hout Ha Hb x Hx). rewrite Mem. tauto.
  - destruct Hout as (os & ys & Hr & _ & Ho & _). rewrite Ho, flat_map_app, in_app_iff. intros [H'|H']; [exact (after_root args b pre post r0 a0 al casts Hops Hwf H')|].
    assert (Hlt : r0 < fresh) by (apply Hun; right; right; left; rewrite Hops, flat_map_app; apply in_or_app; right; now left).
    assert (fresh <= r0); [|lia]. destruct Hb as [->|[-> _]].
    + destruct (after_ret_spec args b pre post r0 a0 al casts Hops Hwf Hi) as (f & Ef & _). destruct (restore_ssa _ _ _ _ _ _ _ Hr) as [G _]; [rewrite Ef; unfold tensors; now rewrite !map_length|auto].
    + rewrite no_restore in Hr. injection Hr as <- <-. destruct H'.
Qed.
(** Which copies are rewritten. *)
Theorem C103_rewriting_applies_iff : forall recast fresh r0 b args pre a0 post, well_formed args b -> ops b = pre ++ CopyTo r0 a0 :: post ->
  (rewrite recast fresh r0 b <> None <-> handled r0 post (ret b) /\ (In r0 (ret b) -> exists o, In o post /\ In r0 (uses o))).
Proof.
  intros recast fresh r0 b args pre a0 post Hwf Hops. destruct (parts args b pre post r0 a0 Hops Hwf) as (_ & _ & N & _ & S2). rewrite in_app_iff in N. assert (Hwf0 := Hwf). destruct Hwf0 as (Hs & Hret & Hna).
  assert (Mk : forall r, In r (flat_map made (CopyTo r0 a0 :: post)) -> In r (nonvalues (nv_args b) (ops b))) by (intros r Hr; rewrite Hops, nonvalues_app; auto).
  assert (M0 : In r0 (nonvalues (nv_args b) (ops b))) by (apply Mk; now left). assert (M1 : forall r, In r (flat_map made post) -> In r (nonvalues (nv_args b) (ops b))) by (intros r Hr; apply Mk; cbn [flat_map made app]; now right).
  assert (Only : negb (existsb (touches [r0]) post) && inb r0 (ret b) = false <-> (In r0 (ret b) -> exists o, In o post /\ In r0 (uses o))).
  { rewrite andb_false_iff, negb_false_iff, inb_not, existsb_exists. split.
    - intros [(o & Ho & Ht)|Hn]; [|tauto]. intros _. apply touches_spec in Ht as (x & Hx & [<-|[]]). eauto.
    - intros H. destruct (in_dec Nat.eq_dec r0 (ret b)) as [Hi|Hi]; [left|now right]. destruct (H Hi) as (o & Ho & Hu). exists o. split; auto. apply touches_spec. exists r0. split; [auto|now left]. }
  assert (Some_iff : rewrite recast fresh r0 b <> None <-> negb (existsb (touches [r0]) post) && inb r0 (ret b) = false /\ exists s, interpret [r0] [r0] [] post (ret b) = Some s).
  { unfold rewrite. rewrite Hops, (split_at_complete r0 pre a0 post) by tauto. cbn [obind]. destruct (negb (existsb (touches [r0]) post) && inb r0 (ret b)); [split; [congruence|intros [[=] _]]|].
    destruct (interpret [r0] [r0] [] post (ret b)) as [[al casts]|]; cbn [obind]; [|split; [congruence|intros [_ (s & [=])]]]. split; [eauto|]. intros _. destruct (drop_overwrites _ _ _ _) as [os1 ret1]. destruct (drop_copies _ _ _) as [os2 ret2]. destruct (existsb _ (ret b)); [destruct (restore _ _ _ _ _)|]; discriminate. }
  rewrite Some_iff, Only. split.
  - intros [Ho (s & Hi)]. split; [|exact Ho]. eapply backward; eauto. intros x Hx. destruct (Hret x Hx) as [H|H]; [|left; right; apply in_or_app; now right]. rewrite Hops, flat_map_app in H. cbn [flat_map defs app] in H. apply in_app_or in H as [H|[<-|H]]; [left; right; apply in_or_app; now left|left; now left|now right].
  - intros [Hh Ho]. split; [exact Ho|]. eapply forward_all; eauto.
Qed.
(** The storage of the results is not kept: tensors that shared storage are copies of one another afterwards. *)
Definition nat_get (k : view) (os : list nat) (c : nat) : nat := c.
Definition nat_put (k : view) (os : list nat) (c v : nat) : nat := v.
Definition nat_shares (k : view) (os : list nat) (c : nat) : bool := true.
Definition nat_pure (k : nat) (os : list nat) : nat := fold_left Nat.add os (S k).
Lemma nat_laws : laws nat nat_get nat_put nat_shares. Proof. split; reflexivity. Qed.
Theorem C103_sharing_of_results_lost_refuted : exists b b' e m x y x' y' l p q l1 l2,
  well_formed [0] b /\ unused 20 b /\ start nat (nv_args b) e /\ rewrite (fun _ => false) 20 10 b = Some b' /\ ret b = [x; y] /\ ret b' = [x'; y'] /\
  (let s := run nat nat_get nat_put nat_shares nat_pure (ops b) (e, m) in fst s x = Ref nat l p /\ fst s y = Ref nat l q) /\
  (let s := run nat nat_get nat_put nat_shares nat_pure (ops b') (e, m) in fst s x' = Ref nat l1 [] /\ fst s y' = Ref nat l2 []) /\ l1 <> l2.
Proof.
  exists {| nv_args := []; ops := [CopyTo 10 0; View (ViewOf 0) true 11 10 []]; ret := [10; 11] |}. eexists. exists (fun _ => Val nat 7), (fun _ => 0), 10, 11. do 7 eexists.
  split; [|split; [|split; [|split; [reflexivity|split; [reflexivity|split; [reflexivity|split; [split; reflexivity|split; [split; reflexivity|]]]]]]]].
  - unfold well_formed. cbn [nv_args ops ret ssa uses defs nonvalues flat_map app]. repeat split; intros; cbn in *; intuition (subst; auto; try lia).
  - unfold unused. cbn. intros x Hx. intuition (subst; lia).
  - intros x. exact Logic.I.
  - discriminate.
Qed.
(** Two views, casts, an overwrite and copies: what is computed before and after. *)
Definition sample : block :=
  {| nv_args := [1]; ops := [CopyTo 10 0; View StaticInfoCast true 11 10 []; View (ViewOf 3) true 12 10 []; CopyVal 13 12; Pure 4 14 [13]; Overwrite 14 11; CopyVal 15 10; View (ViewOf 5) true 16 11 []; Overwrite 15 1]; ret := [13; 15; 16; 10] |}.
Example C103_nonvacuous :
  well_formed [0; 1] sample /\ unused 20 sample /\
  rewrite (fun _ => false) 20 10 sample = Some {| nv_args := [1]; ops := [View StaticInfoCast false 11 0 []; View (ViewOf 3) false 12 0 []; Pure 4 14 [12]; View (ViewOf 5) false 16 14 []; Overwrite 14 1; CopyTo 22 16; CopyTo 25 14]; ret := [12; 14; 22; 25] |} /\
  (let e := fun x => if x =? 1 then Ref nat (Arg 0) [] else Val nat 7 in let m := fun _ : loc => 2 in start nat [1] e /\ results nat nat_get nat_put nat_shares nat_pure sample e m = [7; 12; 12; 12] /\ effects nat nat_get nat_put nat_shares nat_pure sample e m 0 = 12).
Proof.
  split; [|split; [|split; [reflexivity|]]].
  - unfold well_formed, sample. cbn [nv_args ops ret ssa uses defs nonvalues flat_map app]. repeat split; intros; cbn in *; intuition (subst; auto 20; try lia).
  - unfold unused. cbn. intros x Hx. intuition (subst; lia).
  - split; [|split; reflexivity]. intros x. cbn beta. destruct (Nat.eqb_spec x 1) as [->|]; [|exact Logic.I]. split; [now left|eauto].
Qed.
(** A view made before an overwrite and used after it. *)
Example C103_stale_view : rewrite (fun _ => false) 20 10 {| nv_args := []; ops := [CopyTo 10 0; View (ViewOf 3) true 11 10 []; Overwrite 0 10; CopyVal 12 11]; ret := [12] |} = None.
Proof. reflexivity. Qed.
Example C103_just_returned : rewrite (fun _ => false) 20 10 {| nv_args := []; ops := [CopyTo 10 0]; ret := [10] |} = None.
Proof. reflexivity. Qed.
Example C103_recast_returned : rewrite (fun x => x =? 0) 20 10 {| nv_args := [1]; ops := [CopyTo 10 0; CopyVal 11 10]; ret := [10; 1] |} =
  Some {| nv_args := [1]; ops := [View StaticInfoCast false 20 0 []; CopyTo 22 20; CopyVal 24 1; CopyTo 25 24]; ret := [22; 25] |}.
Proof. reflexivity. Qed.

(** * C104: trees of views *)
Definition views_of_members (r0 : id) (b : block) : Prop :=
  forall pre a0 post, ops b = pre ++ CopyTo r0 a0 :: post -> forall k nv r a l x, In (View k nv r a l) post -> In x (a :: l) -> member r0 post x -> nv = true /\ member r0 post a.
Theorem C104_trees_preserve_results_and_effects_partial : forall C get put shares pure recast fresh r0 b b' args e m,
  laws C get put shares -> well_formed args b -> unused fresh b -> start C (nv_args b) e -> views_of_members r0 b -> rewrite_views recast fresh r0 b = Some b' ->
  results C get put shares pure b' e m = results C get put shares pure b e m /\ forall n, effects C get put shares pure b' e m n = effects C get put shares pure b e m n.
Proof.
  intros C get put shares pure recast fresh r0 b b' args e m L Hwf Hun St Hv H. destruct (views_outcome _ _ _ _ _ _ Hwf H Hv) as (pre & a0 & post & al & casts & before & Hops & Hi & Hout).
  eapply outcome_meaning; eauto.
Qed.
(** Such trees are also rewritten by the other pattern. *)
Theorem C104_trees_are_slices_partial : forall recast fresh r0 b b' args, well_formed args b -> views_of_members r0 b -> rewrite_views recast fresh r0 b = Some b' -> rewrite recast fresh r0 b <> None.
Proof.
  intros recast fresh r0 b b' args Hwf Hv H. destruct (views_outcome _ _ _ _ _ _ Hwf H Hv) as (pre & a0 & post & al & casts & before & Hops & Hi & Hout).
  unfold rewrite_views in H. destruct (parts args b pre post r0 a0 Hops Hwf) as (_ & _ & N & _ & S2). rewrite in_app_iff in N. rewrite Hops, (split_at_complete r0 pre a0 post) in H by tauto. cbn [obind] in H.
  unfold rewrite. rewrite Hops, (split_at_complete r0 pre a0 post) by tauto. cbn [obind]. rewrite Hi. cbn [obind].
  assert (T : existsb (touches [r0]) post = true).
  { destruct (existsb (touches [r0]) post) eqn:E; auto. exfalso. assert (Nt : forall o, In o post -> touches [r0] o = false) by (intros o Ho; destruct (touches [r0] o) eqn:To; auto; assert (existsb (touches [r0]) post = true) by (apply existsb_exists; eauto); congruence).
    assert (V : forall os, (forall o, In o os -> touches [r0] o = false) -> view_tree [r0] os = Some [r0] /\ copy_results [r0] os = [] /\ view_results [r0] os = []).
    { induction os as [|o os IH]; intros Ho; [auto|]. destruct (IH (fun o' H' => Ho o' (or_intror H'))) as (V1 & V2 & V3). specialize (Ho o (or_introl eq_refl)). cbn [view_tree]. rewrite Ho. cbn [negb]. split; [auto|]. unfold copy_results, view_results in *. cbn [flat_map]. rewrite V2, V3.
      destruct o; cbn [app]; auto; [|rewrite Ho; auto]. split; auto. rewrite (proj2 (inb_not a [r0])); auto. apply (touches_not _ _ Ho). now left. }
    destruct (V post Nt) as (V1 & V2 & V3). rewrite V1 in H. cbn [obind] in H. rewrite V2, V3 in H. discriminate. }
  rewrite T. cbn [negb andb]. destruct (drop_overwrites _ _ _ _) as [os1 ret1]. destruct (drop_copies _ _ _) as [os2 ret2]. destruct (existsb _ (ret b)); [destruct (restore _ _ _ _ _)|]; discriminate.
Qed.
(** A view of another tensor, which only has the shape of a member of the tree, and which is overwritten before it is copied. *)
Definition expanded : block := {| nv_args := []; ops := [CopyTo 10 0; CopyTo 11 1; View (ViewOf 0) true 12 11 [10]; Overwrite 0 11; CopyVal 13 12]; ret := [13] |}.
Theorem C104_view_of_another_tensor_refuted : exists b' e m,
  laws nat nat_get nat_put nat_shares /\ well_formed [0; 1] expanded /\ unused 20 expanded /\ start nat (nv_args expanded) e /\
  rewrite (fun _ => false) 20 10 expanded = None /\ rewrite (fun _ => false) 20 11 expanded = None /\ rewrite_views (fun _ => false) 20 10 expanded = Some b' /\
  results nat nat_get nat_put nat_shares nat_pure expanded e m = [7] /\ results nat nat_get nat_put nat_shares nat_pure b' e m = [8].
Proof.
  eexists. exists (fun x => if x =? 0 then Val nat 7 else Val nat 8), (fun _ => 0). split; [exact nat_laws|]. split; [|split; [|split; [|split; [reflexivity|split; [reflexivity|split; [reflexivity|split; reflexivity]]]]]].
  - unfold well_formed, expanded. cbn [nv_args ops ret ssa uses defs nonvalues flat_map app]. repeat split; intros; cbn in *; intuition (subst; auto 20; try lia).
  - unfold unused. cbn. intros x Hx. intuition (subst; lia).
  - intros x. cbn beta. destruct (x =? 0); exact Logic.I.
Qed.
(** The copy itself is returned: its value is returned in its place, where a !torch.tensor was. *)
Theorem C104_returned_copy_refuted : exists b b',
  well_formed [0; 1] b /\ unused 20 b /\ rewrite (fun _ => false) 20 10 b = None /\ rewrite_views (fun _ => false) 20 10 b = Some b' /\ tensors b = [true; true] /\ tensors b' = [false; true].
Proof.
  exists {| nv_args := []; ops := [CopyTo 10 0; CopyTo 11 1; View (ViewOf 0) true 12 11 [10]]; ret := [10; 12] |}. eexists. split; [|split; [|split; [reflexivity|split; [reflexivity|split; reflexivity]]]].
  - unfold well_formed. cbn [nv_args ops ret ssa uses defs nonvalues flat_map app]. repeat split; intros; cbn in *; intuition (subst; auto 20; try lia).
  - unfold unused. cbn. intros x Hx. intuition (subst; lia).
Qed.
(** A view and a copy of it are returned: both become a !torch.tensor. *)
Theorem C104_returned_view_and_copy_refuted : exists b b',
  well_formed [0; 1] b /\ unused 20 b /\ views_of_members 10 b /\ rewrite_views (fun _ => false) 20 10 b = Some b' /\ tensors b = [true; false] /\ tensors b' = [true; true].
Proof.
  exists {| nv_args := []; ops := [CopyTo 10 0; View (ViewOf 0) true 12 10 []; CopyVal 13 12]; ret := [12; 13] |}. eexists. split; [|split; [|split; [|split; [reflexivity|split; reflexivity]]]].
  - unfold well_formed. cbn [nv_args ops ret ssa uses defs nonvalues flat_map app]. repeat split; intros; cbn in *; intuition (subst; auto 20; try lia).
  - unfold unused. cbn. intros x Hx. intuition (subst; lia).
  - intros pre a0 post E. cbn [ops] in E. destruct pre as [|o pre]; [injection E as <- <-|exfalso; injection E as <- E; destruct pre as [|o' pre]; [discriminate|injection E as <- E; destruct pre as [|? [|? ?]]; discriminate]].
    intros k nv r a l x [[= <- <- <- <- <-]|[[=]|[]]] _ _. split; [auto|constructor].
Qed.
Example C104_nonvacuous : let b := {| nv_args := []; ops := [CopyTo 10 0; View (ViewOf 0) true 11 10 []; View (ViewOf 1) true 12 11 []; CopyVal 13 12; Pure 2 14 [13]]; ret := [14; 11] |} in
  well_formed [0] b /\ unused 20 b /\ views_of_members 10 b /\
  rewrite_views (fun _ => false) 20 10 b = Some {| nv_args := []; ops := [View (ViewOf 0) false 11 0 []; View (ViewOf 1) false 12 11 []; Pure 2 14 [12]; CopyTo 22 11]; ret := [14; 22] |}.
Proof.
  cbv zeta. split; [|split; [|split; [|reflexivity]]].
  - unfold well_formed. cbn [nv_args ops ret ssa uses defs nonvalues flat_map app]. repeat split; intros; cbn in *; intuition (subst; auto 20; try lia).
  - unfold unused. cbn. intros x Hx. intuition (subst; lia).
  - intros pre a0 post E. cbn [ops] in E. destruct pre as [|o pre]; [injection E as <- <-|exfalso; injection E as <- E; destruct pre as [|o' pre]; [discriminate|injection E as <- E; destruct pre as [|? [|? [|? [|? ?]]]]; discriminate]].
    intros k nv r a l x [[= <- <- <- <- <-]|[[= <- <- <- <- <-]|[[=]|[[=]|[]]]]] _ _; (split; [auto|]); [constructor|]. apply (member_view _ _ (ViewOf 0) 11 10 []); [now left|constructor].
Qed.

Print Assumptions C103_rewriting_preserves_results_and_effects.
Print Assumptions C103_rewriting_keeps_well_formed.
Print Assumptions C103_rewritings_preserve_results_and_effects.
Print Assumptions C103_members_become_values.
Print Assumptions C103_rewriting_applies_iff.
Print Assumptions C103_sharing_of_results_lost_refuted.
Print Assumptions C104_trees_preserve_results_and_effects_partial.
Print Assumptions C104_trees_are_slices_partial.
Print Assumptions C104_view_of_another_tensor_refuted.
Print Assumptions C104_returned_copy_refuted.
Print Assumptions C104_returned_view_and_copy_refuted.
