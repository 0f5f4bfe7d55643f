(** Lemmas for C103: running the original block and the rewritten one. *)
From Coq Require Import Arith Lia List Bool.
From Verif Require Import Prelude ValueSemModel ValueSemSpec ValueSemProofs.
Import ListNotations.
Open Scope nat_scope.

Section Sim.
Variable C : Type.
Variable get : view -> list C -> C -> C.
Variable put : view -> list C -> C -> C -> C.
Variable shares : view -> list C -> C -> bool.
Variable pure : nat -> list C -> C.
Hypothesis L : laws C get put shares.
Notation rval := (rval C).
Notation env := (env C).
Notation mem := (mem C).
Notation read := (read C get).
Notation write := (write C get put).
Notation contents := (contents C get).
Notation step := (step C get put shares pure).
Notation run := (run C get put shares pure).
Notation Val := (Val C).
Notation Ref := (Ref C).
Notation set := (set C).
Notation store := (store C).

Lemma read_app : forall p q b, read b (p ++ q) = read (read b p) q.
Proof. induction p as [|[k os] p IH]; intros q b; [reflexivity|]. cbn [app ValueSemSpec.read]. apply IH. Qed.
Lemma read_write : forall p b v, read (write b p v) p = v.
Proof. induction p as [|[k os] p IH]; intros b v; [reflexivity|]. cbn [ValueSemSpec.read ValueSemSpec.write]. rewrite (put_get _ _ _ _ L). apply IH. Qed.
Lemma write_cast : forall p os b v, write b (p ++ [(StaticInfoCast, os)]) v = write b p v.
Proof. induction p as [|[k o] p IH]; intros os b v; cbn [app ValueSemSpec.write]; [apply (cast_put _ _ _ _ L)|now rewrite IH]. Qed.
Lemma read_cast : forall p os b, read b (p ++ [(StaticInfoCast, os)]) = read b p.
Proof. intros p os b. rewrite read_app. cbn [ValueSemSpec.read]. apply (cast_get _ _ _ _ L). Qed.
Lemma set_same : forall e r v, set e r v r = v.
Proof. intros. unfold ValueSemSpec.set. now rewrite Nat.eqb_refl. Qed.
Lemma set_other : forall e r v x, x <> r -> set e r v x = e x.
Proof. intros e r v x N. unfold ValueSemSpec.set. destruct (Nat.eqb_spec x r); congruence. Qed.
Lemma loc_eqb_spec : forall a b, loc_eqb a b = true <-> a = b.
Proof. intros [n|n] [m|m]; cbn [loc_eqb]; rewrite ?Nat.eqb_eq; split; congruence. Qed.
Lemma store_same : forall m l c, store m l c l = c.
Proof. intros m l c. unfold ValueSemSpec.store. assert (H : loc_eqb l l = true) by now apply loc_eqb_spec. now rewrite H. Qed.
Lemma store_other : forall m l c l', l' <> l -> store m l c l' = m l'.
Proof. intros m l c l' N. unfold ValueSemSpec.store. destruct (loc_eqb l' l) eqn:E; auto. apply loc_eqb_spec in E. congruence. Qed.

(** * Renamed operations on an environment, the operations on the renamed environment *)
Section Renaming.
Variables (A : list id) (v : id).
Definition agrees (e1 e2 : env) : Prop := forall x, e1 (rename A v x) = e2 x.
Lemma contents_agree : forall e1 e2 m, agrees e1 e2 -> forall x, contents e1 m (rename A v x) = contents e2 m x.
Proof. intros e1 e2 m H x. unfold ValueSemSpec.contents. now rewrite H. Qed.
Lemma maps_agree : forall e1 e2 m, agrees e1 e2 -> forall l, map (contents e1 m) (map (rename A v) l) = map (contents e2 m) l.
Proof. intros e1 e2 m H l. rewrite map_map. apply map_ext. intros x. now apply contents_agree. Qed.
Lemma set_agrees : forall e1 e2 r w, agrees e1 e2 -> ~ In r A -> v <> r -> agrees (set e1 r w) (set e2 r w).
Proof.
  intros e1 e2 r w H N Nv x. destruct (Nat.eqb_spec x r) as [->|Nx].
  - assert (E : rename A v r = r) by (unfold rename; rewrite (proj2 (inb_not r A) N); auto). now rewrite E, !set_same.
  - rewrite (set_other e2) by auto. rewrite set_other; [apply H|]. unfold rename. destruct (inb x A); auto.
Qed.
Lemma step_rename : forall o e1 e2 m, agrees e1 e2 -> (forall r, In r (defs o) -> ~ In r A /\ v <> r) ->
  exists e1' e2' m', step (rename_op (rename A v) o) (e1, m) = (e1', m') /\ step o (e2, m) = (e2', m') /\ agrees e1' e2'.
Proof.
  intros o e1 e2 m H D. destruct o as [r a|r a|k nv r a l|w x|k r l]; cbn [rename_op ValueSemSpec.step defs] in *;
    try destruct (D r (or_introl eq_refl)) as [N Nv]; rewrite ?(contents_agree _ _ _ H), ?(maps_agree _ _ _ H).
  - do 3 eexists. split; [reflexivity|]. split; [reflexivity|]. now apply set_agrees.
  - do 3 eexists. split; [reflexivity|]. split; [reflexivity|]. now apply set_agrees.
  - rewrite (H a). destruct (e2 a) as [c|l' p]; [|destruct nv; [destruct (shares k _ _)|]]; (do 3 eexists; split; [reflexivity|]; split; [reflexivity|]; now apply set_agrees).
  - rewrite (H x). destruct (e2 x) as [c|l p]; (do 3 eexists; split; [reflexivity|]; split; [reflexivity|]; exact H).
  - do 3 eexists. split; [reflexivity|]. split; [reflexivity|]. now apply set_agrees.
Qed.
Lemma run_rename : forall os e1 e2 m, agrees e1 e2 -> (forall r, In r (flat_map defs os) -> ~ In r A /\ v <> r) ->
  exists e1' e2' m', run (map (rename_op (rename A v)) os) (e1, m) = (e1', m') /\ run os (e2, m) = (e2', m') /\ agrees e1' e2'.
Proof.
  induction os as [|o os IH]; intros e1 e2 m H D; [exists e1, e2, m; auto|]. cbn [flat_map] in D.
  destruct (step_rename o e1 e2 m H) as (e1' & e2' & m' & E1 & E2 & H'); [intros r Hr; apply D, in_or_app; now left|].
  unfold ValueSemSpec.run in *. cbn [map fold_left]. rewrite E1, E2. apply IH; auto. intros r Hr. apply D, in_or_app. now right.
Qed.
End Renaming.
Definition through (A : list id) (v : id) (e : env) : env := fun x => e (rename A v x).
(** The observed results of a block renamed. *)
Definition seen (s : env * mem) (l : list id) : list C := map (contents (fst s) (snd s)) l.
Lemma seen_rename : forall A v b e m, (forall r, In r (flat_map defs (fst b)) -> ~ In r A /\ v <> r) ->
  let b' := rename_all A v b in let s := run (fst b') (e, m) in let t := run (fst b) (through A v e, m) in
  seen s (snd b') = seen t (snd b) /\ snd s = snd t.
Proof.
  intros A v [os ret] e m D. cbv zeta. cbn [rename_all fst snd] in *. destruct (run_rename A v os e (through A v e) m (fun x => eq_refl) D) as (e1 & e2 & m' & E1 & E2 & H).
  rewrite E1, E2. split; auto. unfold seen. cbn [fst snd]. now apply maps_agree.
Qed.

(** * The simulation *)
Record related (nv df al av : list id) (casts : list (id * id)) (e : env) (m : mem) (e' : env) (m' : mem) : Prop := {
  r_avail : forall x, In x av -> exists s p, e x = Ref (New s) p /\ In s al /\ e' x = Val (read (m (New s)) p);
  r_same : forall x, ~ In x al -> e x = e' x /\ forall s p, e x = Ref (New s) p -> ~ In s al;
  r_mem : forall l, (forall s, l = New s -> ~ In s al) -> m l = m' l;
  r_casts : forall r a, In (r, a) casts -> exists s p os, e a = Ref (New s) p /\ In s al /\ e r = Ref (New s) (p ++ [(StaticInfoCast, os)]) /\ In a al;
  r_av : forall x, In x av -> In x al;
  r_al : forall x, In x al -> In x df /\ In x nv;
  r_keys : forall r a, In (r, a) casts -> In r al;
  r_typed : forall x, ~ In x nv -> exists c, e x = Val c;
  r_stored : forall x s p, e x = Ref (New s) p -> In s df }.

Lemma related_contents : forall nv df al av casts e m e' m', related nv df al av casts e m e' m' -> forall x, ~ In x al \/ In x av -> contents e m x = contents e' m' x.
Proof.
  intros nv df al av casts e m e' m' R x [H|H]; unfold ValueSemSpec.contents.
  - destruct (r_same _ _ _ _ _ _ _ _ _ R x H) as [<- N]. destruct (e x) as [c|l p]; auto. rewrite (r_mem _ _ _ _ _ _ _ _ _ R l); auto. intros s ->. exact (N s p eq_refl).
  - destruct (r_avail _ _ _ _ _ _ _ _ _ R x H) as (s & p & -> & _ & ->). reflexivity.
Qed.
Lemma related_map : forall nv df al av casts e m e' m', related nv df al av casts e m e' m' -> forall l, (forall x, In x l -> ~ In x al \/ In x av) -> map (contents e m) l = map (contents e' m') l.
Proof. intros nv df al av casts e m e' m' R l H. apply map_ext_in. intros x Hx. apply (related_contents _ _ _ _ _ _ _ _ _ R); auto. Qed.

(** A new value that is not an alias, the same on both sides. *)
Lemma related_set : forall nv df al av casts e m e' m' r w, related nv df al av casts e m e' m' -> ~ In r df -> (exists c, w = Val c) \/ In r nv -> (forall l p, w = Ref l p -> (forall s, l = New s -> ~ In s al /\ In s (r :: df))) ->
  related nv (r :: df) al av casts (set e r w) m (set e' r w) m'.
Proof.
  intros nv df al av casts e m e' m' r w R Nr Ty Hw. assert (Na : ~ In r al) by (intros H; apply (r_al _ _ _ _ _ _ _ _ _ R) in H; tauto).
  assert (Nal : forall x, In x al -> x <> r) by (intros x Hx ->; auto). split.
  - intros x Hx. assert (x <> r) by (apply Nal, (r_av _ _ _ _ _ _ _ _ _ R); auto). rewrite !set_other by auto. apply (r_avail _ _ _ _ _ _ _ _ _ R); auto.
  - intros x Hx. destruct (Nat.eqb_spec x r) as [->|N].
    + rewrite !set_same. split; auto. intros s p E. apply (Hw _ _ E s eq_refl).
    + rewrite !set_other by auto. apply (r_same _ _ _ _ _ _ _ _ _ R); auto.
  - apply (r_mem _ _ _ _ _ _ _ _ _ R).
  - intros q a Hq. destruct (r_casts _ _ _ _ _ _ _ _ _ R q a Hq) as (s & p & os & E1 & Hs & E2 & Ha). exists s, p, os.
    rewrite !set_other; [auto| |]; [apply Nal, (r_keys _ _ _ _ _ _ _ _ _ R q a Hq)|apply Nal; auto].
  - apply (r_av _ _ _ _ _ _ _ _ _ R).
  - intros x Hx. destruct (r_al _ _ _ _ _ _ _ _ _ R x Hx). split; [right|]; auto.
  - apply (r_keys _ _ _ _ _ _ _ _ _ R).
  - intros x Hx. destruct (Nat.eqb_spec x r) as [->|N]; [rewrite set_same; destruct Ty; [auto|tauto]|rewrite set_other by auto; apply (r_typed _ _ _ _ _ _ _ _ _ R); auto].
  - intros x s p E. destruct (Nat.eqb_spec x r) as [->|N]; [rewrite set_same in E; apply (Hw _ _ E s eq_refl)|]. rewrite set_other in E by auto. right. apply (r_stored _ _ _ _ _ _ _ _ _ R x s p E).
Qed.
(** A storage that is not an alias', the same contents on both sides. *)
Lemma related_store : forall nv df al av casts e m e' m' l c, related nv df al av casts e m e' m' -> (forall s, l = New s -> ~ In s al) -> related nv df al av casts e (store m l c) e' (store m' l c).
Proof.
  intros nv df al av casts e m e' m' l c R Hl. split; try apply R.
  - intros x Hx. destruct (r_avail _ _ _ _ _ _ _ _ _ R x Hx) as (s & p & E & Hs & E'). exists s, p. rewrite store_other; [auto|]. intros <-. exact (Hl s eq_refl Hs).
  - intros l' Hl'. destruct (loc_eqb l' l) eqn:El.
    + apply loc_eqb_spec in El as ->. now rewrite !store_same.
    + assert (l' <> l) by (intros ->; rewrite (proj2 (loc_eqb_spec l l) eq_refl) in El; discriminate). rewrite !store_other by auto. apply (r_mem _ _ _ _ _ _ _ _ _ R); auto.
Qed.
Lemma related_df : forall nv df df' al av casts e m e' m', (forall x, In x df -> In x df') -> related nv df al av casts e m e' m' -> related nv df' al av casts e m e' m'.
Proof. intros nv df df' al av casts e m e' m' H R. split; try apply R. - intros x Hx. destruct (r_al _ _ _ _ _ _ _ _ _ R x Hx). auto. - intros x s p E. apply H, (r_stored _ _ _ _ _ _ _ _ _ R x s p E). Qed.

(** An operation that does not use an alias does the same on both sides. *)
Lemma ordinary_step : forall o nv df al av casts e m e' m', related nv df al av casts e m e' m' -> (forall x, In x (uses o) -> ~ In x al) -> (forall r, In r (defs o) -> ~ In r df) ->
  (forall r, In r (match o with CopyTo r _ => [r] | View _ true r _ _ => [r] | _ => [] end) -> In r nv) ->
  exists e1 m1 e1' m1', step o (e, m) = (e1, m1) /\ step o (e', m') = (e1', m1') /\ related nv (defs o ++ df) al av casts e1 m1 e1' m1'.
Proof.
  intros o nv df al av casts e m e' m' R U D Ty. assert (Cn := related_contents _ _ _ _ _ _ _ _ _ R). assert (Cm := related_map _ _ _ _ _ _ _ _ _ R).
  assert (Nd : forall r, In r (defs o) -> ~ In r al) by (intros r Hr Ha; apply (D r Hr), (r_al _ _ _ _ _ _ _ _ _ R r Ha)).
  destruct o as [r a|r a|k b r a l|v x|k r l]; cbn [ValueSemSpec.step defs uses app] in *.
  - rewrite <- (Cn a) by (left; apply U; now left). do 4 eexists. split; [reflexivity|]. split; [reflexivity|]. assert (Nr := Nd r (or_introl eq_refl)). apply related_store; [|intros s [= <-]; auto].
    apply related_set; [auto|apply D; now left|right; apply Ty; now left|]. intros l p [= <- <-] s [= <-]. split; [auto|now left].
  - rewrite <- (Cn a) by (left; apply U; now left). do 4 eexists. split; [reflexivity|]. split; [reflexivity|]. apply related_set; [auto|apply D; now left|left; eauto|]. discriminate.
  - rewrite <- (Cn a) by (left; apply U; now left). rewrite <- (Cm l) by (intros y Hy; left; apply U; now right).
    destruct (r_same _ _ _ _ _ _ _ _ _ R a (U a (or_introl eq_refl))) as [<- Na]. destruct (e a) as [c|l' p] eqn:Ea.
    + do 4 eexists. split; [reflexivity|]. split; [reflexivity|]. apply related_set; [auto|apply D; now left|left; eauto|]. discriminate.
    + destruct b; [destruct (shares k _ _)|]; (do 4 eexists; split; [reflexivity|]; split; [reflexivity|]).
      * apply related_set; [auto|apply D; now left|right; apply Ty; now left|]. intros l1 p1 [= <- <-] s ->. split; [exact (Na s p eq_refl)|right; exact (r_stored _ _ _ _ _ _ _ _ _ R a s p Ea)].
      * apply related_store; [|intros s [= <-]; apply Nd; now left]. apply related_set; [auto|apply D; now left|right; apply Ty; now left|]. intros l1 p1 [= <- <-] s [= <-]. split; [apply Nd; now left|now left].
      * apply related_set; [auto|apply D; now left|left; eauto|]. discriminate.
  - rewrite <- (Cn v) by (left; apply U; now left). destruct (r_same _ _ _ _ _ _ _ _ _ R x (U x (or_intror (or_introl eq_refl)))) as [<- Na]. destruct (e x) as [c|l p] eqn:Ex.
    + do 4 eexists. split; [reflexivity|]. split; [reflexivity|]. exact R.
    + assert (Hl : forall s, l = New s -> ~ In s al) by (intros s ->; exact (Na s p eq_refl)). rewrite <- (r_mem _ _ _ _ _ _ _ _ _ R l Hl). do 4 eexists. split; [reflexivity|]. split; [reflexivity|]. now apply related_store.
  - rewrite <- (Cm l) by (intros y Hy; left; auto). do 4 eexists. split; [reflexivity|]. split; [reflexivity|]. apply related_set; [auto|apply D; now left|left; eauto|]. discriminate.
Qed.
(** A view of an alias: shared or copied in the original block, a value in the rewritten one. *)
Lemma view_step : forall k r a l nv df al av casts e m e' m', related nv df al av casts e m e' m' -> In a av -> (forall x, In x l -> ~ In x al \/ In x av) -> ~ In r df -> In r nv ->
  exists e1 m1 e1' m1', step (View k true r a l) (e, m) = (e1, m1) /\ step (View k false r a l) (e', m') = (e1', m1') /\
    related nv (r :: df) (r :: al) (r :: av) (match k with StaticInfoCast => (r, a) :: casts | ViewOf _ => casts end) e1 m1 e1' m1'.
Proof.
  intros k r a l nv df al av casts e m e' m' R Ha U Nr Hn. assert (Cn := related_contents _ _ _ _ _ _ _ _ _ R a (or_intror Ha)). assert (Cm := related_map _ _ _ _ _ _ _ _ _ R l U).
  destruct (r_avail _ _ _ _ _ _ _ _ _ R a Ha) as (s & p & Ea & Hs & Ea'). cbn [ValueSemSpec.step]. rewrite <- Cn, <- Cm, Ea, Ea'.
  assert (Cc : contents e m a = read (m (New s)) p) by (unfold ValueSemSpec.contents; now rewrite Ea). set (cs := map (contents e m) l) in *. rewrite Cc.
  assert (Nal : forall x, In x al -> x <> r) by (intros x Hx ->; apply Nr, (r_al _ _ _ _ _ _ _ _ _ R r Hx)).
  assert (New_r : forall x s' p', e x = Ref (New s') p' -> s' <> r) by (intros x s' p' E ->; apply Nr, (r_stored _ _ _ _ _ _ _ _ _ R x r p' E)).
  (* what does not depend on whether the storage is shared *)
  assert (Gen : forall l1 p1 m1, (exists s1, l1 = New s1 /\ In s1 (r :: al)) -> read (m1 l1) p1 = get k cs (read (m (New s)) p) -> (forall l2, l2 <> New r -> m1 l2 = m l2) -> (k = StaticInfoCast -> l1 = New s /\ p1 = p ++ [(StaticInfoCast, cs)]) ->
     related nv (r :: df) (r :: al) (r :: av) (match k with StaticInfoCast => (r, a) :: casts | ViewOf _ => casts end) (set e r (Ref l1 p1)) m1 (set e' r (Val (get k cs (read (m (New s)) p)))) m').
  { intros l1 p1 m1 (s1 & -> & Hs1) Rd Hm Hc. split.
    - intros x [<-|Hx].
      + exists s1, p1. rewrite !set_same. rewrite Rd. auto.
      + assert (x <> r) by (apply Nal, (r_av _ _ _ _ _ _ _ _ _ R); auto). rewrite !set_other by auto. destruct (r_avail _ _ _ _ _ _ _ _ _ R x Hx) as (s2 & p2 & E & H2 & E'). exists s2, p2. split; [auto|]. split; [now right|].
        rewrite Hm by (intros [= Q]; now apply (Nal s2 H2)). exact E'.
    - intros x Hx. assert (x <> r) by (intros ->; apply Hx; now left). assert (~ In x al) by (intros H'; apply Hx; now right). rewrite !set_other by auto. destruct (r_same _ _ _ _ _ _ _ _ _ R x H0) as [E N]. split; auto.
      intros s2 p2 E2 [<-|H2]; [exact (New_r x r p2 E2 eq_refl)|exact (N s2 p2 E2 H2)].
    - intros l2 Hl. rewrite Hm by (intros ->; apply (Hl r eq_refl); now left). apply (r_mem _ _ _ _ _ _ _ _ _ R). intros s2 E2 H2. apply (Hl s2 E2). now right.
    - intros q b Hq. assert (Old : In (q, b) casts -> exists s0 p0 os, set e r (Ref (New s1) p1) b = Ref (New s0) p0 /\ In s0 (r :: al) /\ set e r (Ref (New s1) p1) q = Ref (New s0) (p0 ++ [(StaticInfoCast, os)]) /\ In b (r :: al)).
      { intros Ho. destruct (r_casts _ _ _ _ _ _ _ _ _ R q b Ho) as (s2 & p2 & os & E1 & H2 & E2 & Hb). exists s2, p2, os. assert (Hk := r_keys _ _ _ _ _ _ _ _ _ R q b Ho).
        rewrite !set_other by (apply Nal; auto). split; [auto|]. split; [now right|]. split; [auto|now right]. }
      destruct k as [|n]; [|auto]. destruct Hq as [Hq|Hq]; [|auto]. injection Hq as <- <-. destruct (Hc eq_refl) as [[= ->] ->]. exists s, p, cs. rewrite set_same, set_other by (apply Nal, (r_av _ _ _ _ _ _ _ _ _ R); auto).
      split; [auto|]. split; [auto|]. split; [auto|right; apply (r_av _ _ _ _ _ _ _ _ _ R); auto].
    - intros x [<-|Hx]; [now left|right; apply (r_av _ _ _ _ _ _ _ _ _ R); auto].
    - intros x [<-|Hx]; [split; [now left|auto]|]. destruct (r_al _ _ _ _ _ _ _ _ _ R x Hx). split; [now right|auto].
    - intros q b Hq. destruct k as [|n]; [destruct Hq as [[= <- <-]|Hq]; [now left|]|]; right; apply (r_keys _ _ _ _ _ _ _ _ _ R q b Hq).
    - intros x Hx. assert (x <> r) by (intros ->; auto). rewrite set_other by auto. apply (r_typed _ _ _ _ _ _ _ _ _ R x Hx).
    - intros x s2 p2 E. destruct (Nat.eqb_spec x r) as [->|Nx].
      + rewrite set_same in E. injection E as <- _. destruct Hs1 as [<-|Hs1]; [now left|right; apply (r_al _ _ _ _ _ _ _ _ _ R s1 Hs1)].
      + rewrite set_other in E by auto. right. apply (r_stored _ _ _ _ _ _ _ _ _ R x s2 p2 E). }
  destruct (shares k cs (read (m (New s)) p)) eqn:Sh.
  - do 4 eexists. split; [reflexivity|]. split; [reflexivity|]. apply Gen.
    + exists s. split; [auto|now right].
    + rewrite read_app. reflexivity.
    + reflexivity.
    + intros ->. auto.
  - do 4 eexists. split; [reflexivity|]. split; [reflexivity|]. apply Gen.
    + exists r. split; [auto|now left].
    + rewrite store_same. reflexivity.
    + intros l2 N2. now apply store_other.
    + intros ->. rewrite (cast_shares _ _ _ _ L) in Sh. discriminate.
Qed.
(** Casts of one tensor are one place. *)
Lemma casts_written : forall nv df al av casts0 e m e' m', related nv df al av casts0 e m e' m' -> forall casts x y l p, (forall r a, In (r, a) casts -> In (r, a) casts0) -> In y (cast_aliases casts x) -> e x = Ref l p ->
  exists p', e y = Ref l p' /\ In y al /\ forall b v, write b p v = write b p' v.
Proof.
  intros nv df al av casts0 e m e' m' R casts. induction casts as [|[r a] casts IH]; intros x y l p Hsub Hy Ex; [destruct Hy|]. cbn [cast_aliases] in Hy.
  assert (Hs' : forall r a, In (r, a) casts -> In (r, a) casts0) by (intros r' a' H'; apply Hsub; now right). destruct (Nat.eqb_spec r x) as [->|_]; [|eapply IH; eauto].
  destruct (r_casts _ _ _ _ _ _ _ _ _ R x a (Hsub _ _ (or_introl eq_refl))) as (s & p' & os & Ea & Hs & Er & Hal). rewrite Ex in Er. injection Er as -> ->.
  destruct Hy as [<-|Hy].
  - exists p'. split; [auto|]. split; [auto|]. intros b v. apply write_cast.
  - destruct (IH a y _ _ Hs' Hy Ea) as (p2 & Ey & Hal' & W). exists p2. split; [auto|]. split; [auto|]. intros b v. now rewrite write_cast.
Qed.
Lemma rewritten_defs : forall al casts os ret r, In r (flat_map defs (fst (rewritten al casts os ret))) -> In r (flat_map defs os).
Proof.
  intros al casts os ret r. induction os as [|o os IH]; intros H; [exact H|].
  assert (Ren : forall f l, flat_map defs (map (rename_op f) l) = flat_map defs l) by (intros f; induction l as [|x l IHl]; auto; cbn [map flat_map]; rewrite IHl; now destruct x).
  cbn [flat_map]. apply in_or_app. destruct o as [q a|q a|k nv q a l|v x|k q l]; cbn [rewritten] in H; try (cbn [cons_op fst flat_map] in H; apply in_app_or in H as [H|H]; auto; fail).
  - destruct (inb a al); [|cbn [cons_op fst flat_map] in H; apply in_app_or in H as [H|H]; auto]. right. apply IH. unfold rename_all in H. cbn [fst] in H. now rewrite Ren in H.
  - destruct (inb x al); [|cbn [cons_op fst flat_map] in H; apply in_app_or in H as [H|H]; auto]. right. apply IH. unfold rename_all in H. cbn [fst] in H. now rewrite Ren in H.
Qed.

Lemma simulation : forall alF castsF nv os ret al av casts df e m e' m', interpret al av casts os ret = Some (alF, castsF) -> ssa df nv os ->
  (forall r, In r (flat_map (fun o => match o with CopyTo r _ => [r] | View _ true r _ _ => [r] | _ => [] end) os) -> In r nv) ->
  (forall x, In x ret -> ~ In x al -> In x alF -> In x (flat_map defs os)) -> related nv df al av casts e m e' m' ->
  let b := rewritten alF castsF os ret in let s := run os (e, m) in let t := run (fst b) (e', m') in seen s ret = seen t (snd b) /\ forall n, snd s (Arg n) = snd t (Arg n).
Proof.
  intros alF castsF nv os ret. induction os as [|o os IH]; intros al av casts df e m e' m' Hi Hs Ht Hret R.
  - cbn [interpret] in Hi. destruct (forallb _ ret) eqn:Hok in Hi; [|discriminate]. cbv zeta. cbn [rewritten fst snd]. unfold ValueSemSpec.run. cbn [fold_left fst snd]. split.
    + unfold seen. cbn [fst snd]. apply (related_map _ _ _ _ _ _ _ _ _ R). intros x Hx. exact (ok_spec _ _ _ Hok x Hx).
    + intros n. apply (r_mem _ _ _ _ _ _ _ _ _ R). discriminate.
  - destruct (interpret_grows _ _ _ _ _ _ _ Hi) as (na & nc & Ea & Ec & Dna & Dnc). assert (Hs0 := Hs). destruct Hs as (U & N & Ty & Hs).
    assert (Dn : forall x, In x df -> ~ In x (flat_map defs (o :: os))) by (intros x Hx; apply (ssa_defined _ df nv x Hs0 Hx)).
    assert (Mem : forall x, In x df -> inb x alF = inb x al).
    { intros x Hx. destruct (inb x al) eqn:E; [apply inb_In in E; apply inb_In; rewrite Ea; apply in_or_app; now right|]. apply inb_not in E. apply inb_not. rewrite Ea. intros H. apply in_app_or in H as [H|H]; [exact (Dn x Hx (Dna x H))|auto]. }
    assert (Ht' : forall r, In r (flat_map (fun o => match o with CopyTo r _ => [r] | View _ true r _ _ => [r] | _ => [] end) os) -> In r nv) by (intros r Hr; apply Ht; cbn [flat_map]; apply in_or_app; now right).
    assert (Hto : forall r, In r (match o with CopyTo r _ => [r] | View _ true r _ _ => [r] | _ => [] end) -> In r nv) by (intros r Hr; apply Ht; cbn [flat_map]; apply in_or_app; now left).
    assert (HretK : forall x, In x ret -> ~ In x al -> In x alF -> In x (defs o) \/ In x (flat_map defs os)) by (intros x H1 H2 H3; specialize (Hret x H1 H2 H3); cbn [flat_map] in Hret; now apply in_app_or).
    assert (Same : forall av', interpret al av' casts os ret = Some (alF, castsF) -> forall x, In x ret -> ~ In x al -> In x alF -> In x (flat_map defs os)).
    { intros av' H' x H1 H2 H3. destruct (interpret_grows _ _ _ _ _ _ _ H') as (na' & nc' & Ea' & _ & Dna' & _). rewrite Ea' in H3. apply in_app_or in H3 as [H3|H3]; [auto|contradiction]. }
    cbn [interpret] in Hi. destruct (touches al o) eqn:To; cbn [negb] in Hi.
    + (* an alias is used *)
      destruct (forallb _ (uses o)) eqn:Hok in Hi; cbn [negb] in Hi; [|discriminate]. assert (Ok := ok_spec _ _ _ Hok).
      destruct o as [r a|r a|k b r a l|v x|k r l]; try discriminate.
      * (* copy.to_vtensor *)
        assert (Ha : In a al) by (apply touches_spec in To as (y & [<-|[]] & Hy); auto). destruct (Ok a (or_introl eq_refl)) as [|Hav]; [contradiction|]. destruct (r_avail _ _ _ _ _ _ _ _ _ R a Hav) as (s & p & E1 & Hal & E2).
        cbn [rewritten]. rewrite (Mem a) by (apply U; now left). rewrite (proj2 (inb_In a al) Ha).
        assert (Hr : ~ In r df) by (apply N; now left). assert (R' : related nv (r :: df) al av casts (set e r (Val (contents e m a))) m (through [r] a e') m').
        { assert (R1 := related_set _ _ _ _ _ _ _ _ _ r (Val (contents e m a)) R Hr (or_introl (ex_intro _ _ eq_refl)) ltac:(discriminate)).
          assert (Ext : forall y, through [r] a e' y = set e' r (Val (contents e m a)) y).
          { intros y. unfold through, rename, ValueSemSpec.set, inb. cbn [existsb]. rewrite orb_false_r. destruct (y =? r); auto. rewrite E2. unfold ValueSemSpec.contents. now rewrite E1. }
          destruct R1 as [A1 A2 A3 A4 A5 A6 A7 A8 A9]. split; auto.
          - intros y Hy. destruct (A1 y Hy) as (s' & p' & B1 & B2 & B3). exists s', p'. rewrite Ext. auto.
          - intros y Hy. rewrite Ext. auto. }
        destruct (IH _ _ _ _ _ _ _ _ Hi Hs Ht' (Same _ Hi) R') as [S1 S2]. cbv zeta. unfold ValueSemSpec.run at 1 3. cbn [fold_left ValueSemSpec.step]. change (fold_left _ os ?s) with (run os s).
        destruct (seen_rename [r] a (rewritten alF castsF os ret) e' m') as [T1 T2].
        { intros q Hq. apply rewritten_defs in Hq. split; [intros [<-|[]]; revert Hq; apply (ssa_def_once _ _ _ _ _ Hs0); now left|]. intros <-. apply (Dn a); [apply U; now left|]. cbn [flat_map defs app]. now right. }
        split; [rewrite S1; symmetry; exact T1|]. intros n. rewrite S2. now rewrite T2.
      * (* views *)
        cbn [rewritten cons_op fst snd]. assert (Tf : touches alF (View k b r a l) = true) by (apply touches_spec in To as (y & Hy & Hya); apply touches_spec; exists y; split; auto; rewrite Ea; apply in_or_app; now right). rewrite Tf, andb_false_r.
        assert (Hr : ~ In r df) by (apply N; now left). destruct b.
        -- destruct (inb a al) eqn:Ia; [|discriminate]. apply inb_In in Ia. destruct (Ok a (or_introl eq_refl)) as [|Hav]; [contradiction|].
           destruct (view_step k r a l nv df al av casts e m e' m' R Hav (fun y Hy => Ok y (or_intror Hy)) Hr (Hto r (or_introl eq_refl))) as (e1 & m1 & e1' & m1' & St & St' & R').
           cbv zeta. unfold ValueSemSpec.run at 1 2 3 4. cbn [fold_left]. change (fold_left _ ?q ?s) with (run q s). rewrite St, St'.
           apply (IH _ _ _ _ _ _ _ _ Hi Hs Ht'); [|exact R']. intros y H1 H2 H3. destruct (HretK y H1) as [[<-|[]]|]; auto; [intros Q; apply H2; now right|exfalso; apply H2; now left].
        -- assert (Cn := related_map _ _ _ _ _ _ _ _ _ R l (fun y Hy => Ok y (or_intror Hy))). assert (Ca := related_contents _ _ _ _ _ _ _ _ _ R a (Ok a (or_introl eq_refl))).
           assert (St : forall (e0 : env) m0, step (View k false r a l) (e0, m0) = (set e0 r (Val (get k (map (contents e0 m0) l) (contents e0 m0 a))), m0)) by (intros e0 m0; cbn [ValueSemSpec.step]; now destruct (e0 a)).
           cbv zeta. unfold ValueSemSpec.run at 1 2 3 4. cbn [fold_left]. change (fold_left _ ?q ?s) with (run q s). rewrite !St. rewrite <- Cn, <- Ca.
           apply (IH _ _ _ _ _ _ _ _ Hi Hs Ht' (Same _ Hi)). apply related_set; [auto|auto|left; eauto|discriminate].
      * (* overwrites *)
        assert (Nv : ~ In v al) by (intros Hv; apply Ty; apply (r_al _ _ _ _ _ _ _ _ _ R v Hv)). assert (Hx : In x al) by (apply touches_spec in To as (y & [<-|[<-|[]]] & Hy); [contradiction|auto]).
        destruct (Ok x (or_intror (or_introl eq_refl))) as [|Hav]; [contradiction|]. destruct (r_avail _ _ _ _ _ _ _ _ _ R x Hav) as (s & p & E1 & Hal & E2).
        assert (Ux : In x df) by (apply U; cbn; auto). assert (Uv : In v df) by (apply U; cbn; auto).
        cbn [rewritten]. rewrite (Mem x) by auto. rewrite (proj2 (inb_In x al) Hx).
        assert (Kx : forall r a, In (r, a) casts -> In r df /\ In a df) by (intros r a Hq; split; [apply (r_al _ _ _ _ _ _ _ _ _ R r (r_keys _ _ _ _ _ _ _ _ _ R r a Hq))|destruct (r_casts _ _ _ _ _ _ _ _ _ R r a Hq) as (? & ? & ? & _ & _ & _ & Q); apply (r_al _ _ _ _ _ _ _ _ _ R a Q)]).
        assert (Q : cast_aliases castsF x = cast_aliases casts x).
        { rewrite Ec. apply cast_aliases_app. intros r' a' Hn. specialize (Dnc _ _ Hn). split; [intros ->; exact (Dn x Ux Dnc)|]. intros y Hy ->. destruct (cast_aliases_in _ _ _ Hy) as (q & Hq). destruct (Kx _ _ Hq) as [_ Hy']. exact (Dn y Hy' Dnc). }
        rewrite Q. set (A := x :: cast_aliases casts x) in *.
        assert (HA : forall y, In y A -> exists p', e y = Ref (New s) p' /\ In y al /\ forall b w, write b p w = write b p' w).
        { intros y [<-|Hy]; [exists p; auto|]. exact (casts_written _ _ _ _ _ _ _ _ _ R casts x y _ _ (fun _ _ H => H) Hy E1). }
        destruct (r_typed _ _ _ _ _ _ _ _ _ R v Ty) as (c & Ev). assert (Cv : contents e m v = c) by (unfold ValueSemSpec.contents; now rewrite Ev). destruct (r_same _ _ _ _ _ _ _ _ _ R v Nv) as [Ev' _]. rewrite Ev in Ev'.
        assert (R' : related nv df al A casts e (store m (New s) (write (m (New s)) p c)) (through A v e') m').
        { split.
          - intros y Hy. destruct (HA y Hy) as (p' & Ey & Hya & W). exists s, p'. split; [auto|]. split; [auto|]. rewrite store_same, W, read_write. unfold through, rename. rewrite (proj2 (inb_In y A) Hy). now symmetry.
          - intros y Hy. assert (NA : inb y A = false) by (apply inb_not; intros HyA; destruct (HA y HyA) as (_ & _ & Hya & _); contradiction). unfold through, rename. rewrite NA. apply (r_same _ _ _ _ _ _ _ _ _ R y Hy).
          - intros l Hl. rewrite store_other by (intros ->; exact (Hl s eq_refl Hal)). apply (r_mem _ _ _ _ _ _ _ _ _ R l Hl).
          - apply (r_casts _ _ _ _ _ _ _ _ _ R).
          - intros y Hy. destruct (HA y Hy) as (_ & _ & Hya & _). exact Hya.
          - apply (r_al _ _ _ _ _ _ _ _ _ R).
          - apply (r_keys _ _ _ _ _ _ _ _ _ R).
          - apply (r_typed _ _ _ _ _ _ _ _ _ R).
          - apply (r_stored _ _ _ _ _ _ _ _ _ R). }
        destruct (IH _ _ _ _ _ _ _ _ Hi Hs Ht' (Same _ Hi) R') as [S1 S2]. cbv zeta. unfold ValueSemSpec.run at 1 3. cbn [fold_left ValueSemSpec.step]. rewrite E1, Cv. change (fold_left _ os ?s) with (run os s).
        destruct (seen_rename A v (rewritten alF castsF os ret) e' m') as [T1 T2].
        { intros q Hq. apply rewritten_defs in Hq. assert (Dq : forall y, In y df -> y <> q) by (intros y Hy ->; apply (Dn q Hy); cbn [flat_map defs app]; auto).
          split; [|auto]. intros HqA. destruct (HA q HqA) as (_ & _ & Hqa & _). exact (Dq q (proj1 (r_al _ _ _ _ _ _ _ _ _ R q Hqa)) eq_refl). }
        split; [rewrite S1; symmetry; exact T1|]. intros n. rewrite S2. now rewrite T2.
    + (* no alias is used *)
      assert (Un := touches_not _ _ To). destruct (ordinary_step o nv df al av casts e m e' m' R Un N Hto) as (e1 & m1 & e1' & m1' & St & St' & R').
      assert (Hb : rewritten alF castsF (o :: os) ret = cons_op o (rewritten alF castsF os ret)).
      { cbn [rewritten]. destruct o as [r a|r a|k b r a l|v x|k r l]; auto.
        - rewrite (Mem a) by (apply U; now left). rewrite (proj2 (inb_not a al)) by (apply Un; now left). reflexivity.
        - assert (Tf : touches alF (View k b r a l) = false). { destruct (touches alF (View k b r a l)) eqn:E; auto. apply touches_spec in E as (y & Hy & Hya). exfalso. apply (Un y Hy). apply inb_In. rewrite <- (Mem y) by (apply U; auto). now apply inb_In. }
          rewrite Tf. cbn [negb]. now rewrite andb_true_r.
        - rewrite (Mem x) by (apply U; cbn; auto). rewrite (proj2 (inb_not x al)) by (apply Un; cbn; auto). reflexivity. }
      rewrite Hb. cbv zeta. cbn [cons_op fst snd]. unfold ValueSemSpec.run at 1 2 3 4. cbn [fold_left]. change (fold_left _ ?q ?s) with (run q s). rewrite St, St'. apply (IH _ _ _ _ _ _ _ _ Hi Hs Ht' (Same _ Hi) R').
Qed.

(** * The block from its start *)
Lemma run_app : forall a b s, run (a ++ b) s = run b (run a s).
Proof. intros a b s. unfold ValueSemSpec.run. apply fold_left_app. Qed.
Definition made (o : op) : list id := match o with CopyTo r _ => [r] | View _ true r _ _ => [r] | _ => [] end.
Lemma prefix : forall nv pre post df e m, ssa df nv (pre ++ post) -> (forall r, In r (flat_map made pre) -> In r nv) -> related nv df [] [] [] e m e m ->
  exists df', ssa df' nv post /\ (forall x, In x df' <-> In x df \/ In x (flat_map defs pre)) /\ let s := run pre (e, m) in related nv df' [] [] [] (fst s) (snd s) (fst s) (snd s).
Proof.
  intros nv. induction pre as [|o pre IH]; intros post df e m Hs Ht R.
  - exists df. split; [exact Hs|]. split; [|exact R]. intros x. cbn [flat_map In]. tauto.
  - destruct Hs as (U & N & Ty & Hs). destruct (ordinary_step o nv df [] [] [] e m e m R) as (e1 & m1 & e1' & m1' & St & St' & R'); [auto|auto|intros r Hr; apply Ht; cbn [flat_map]; apply in_or_app; now left|].
    rewrite St in St'. injection St' as <- <-. destruct (IH post (defs o ++ df) e1 m1 Hs) as (df' & S' & D & Rf); [intros r Hr; apply Ht; cbn [flat_map]; apply in_or_app; now right|exact R'|].
    exists df'. split; [auto|]. split; [|cbv zeta; unfold ValueSemSpec.run in *; cbn [fold_left]; rewrite St; exact Rf]. intros x. rewrite D. cbn [flat_map]. rewrite !in_app_iff. tauto.
Qed.
Lemma start_related : forall nv0 nv args e m, start C nv0 e -> (forall x, In x nv0 -> In x nv) -> related nv args [] [] [] e m e m.
Proof.
  intros nv0 nv args e m St Hn. split; try (intros; contradiction); auto.
  - intros x Hx. specialize (St x). destruct (e x) as [c|l p]; [eauto|]. destruct St as [H _]. exfalso. auto.
  - intros x s p Ex. specialize (St x). rewrite Ex in St. destruct St as [_ (n & H)]. discriminate.
Qed.
(** The copy: a storage of its own in the original block, its operand in the rewritten one. *)
Lemma root : forall nv df r0 a0 e m, related nv df [] [] [] e m e m -> ~ In r0 df -> In r0 nv -> ~ In a0 nv ->
  let s := step (CopyTo r0 a0) (e, m) in related nv (r0 :: df) [r0] [r0] [] (fst s) (snd s) (through [r0] a0 e) m.
Proof.
  intros nv df r0 a0 e m R N Hn Na. cbv zeta. cbn [ValueSemSpec.step fst snd]. destruct (r_typed _ _ _ _ _ _ _ _ _ R a0 Na) as (c & Ea). assert (Cc : contents e m a0 = c) by (unfold ValueSemSpec.contents; now rewrite Ea). rewrite Cc.
  assert (Th : forall x, x <> r0 -> through [r0] a0 e x = e x) by (intros x Nx; unfold through, rename; rewrite (proj2 (inb_not x [r0])); [auto|intros [|[]]; congruence]).
  split.
  - intros x [<-|[]]. exists r0, []. rewrite set_same, store_same. split; [auto|]. split; [now left|]. unfold through, rename. rewrite (proj2 (inb_In r0 [r0])) by now left. exact Ea.
  - intros x Hx. assert (x <> r0) by (intros ->; apply Hx; now left). rewrite set_other, Th by auto. split; auto. intros s p Ex [<-|[]]. apply N, (r_stored _ _ _ _ _ _ _ _ _ R x r0 p Ex).
  - intros l Hl. apply store_other. intros ->. apply (Hl r0 eq_refl). now left.
  - intros r a [].
  - auto.
  - intros x [<-|[]]. split; [now left|auto].
  - intros r a [].
  - intros x Hx. rewrite set_other by (intros ->; auto). apply (r_typed _ _ _ _ _ _ _ _ _ R x Hx).
  - intros x s p Ex. destruct (Nat.eqb_spec x r0) as [->|Nx]; [rewrite set_same in Ex; injection Ex as <- _; now left|]. rewrite set_other in Ex by auto. right. apply (r_stored _ _ _ _ _ _ _ _ _ R x s p Ex).
Qed.

(** * The copies before the return *)
Definition bounded (n : id) (e : env) : Prop := forall x s p, e x = Ref (New s) p -> s < n.
Lemma bounded_set : forall n e r w, bounded n e -> (forall s p, w = Ref (New s) p -> s < n) -> bounded n (set e r w).
Proof. intros n e r w B W x s p Ex. destruct (Nat.eqb_spec x r) as [->|N]; [rewrite set_same in Ex; eauto|rewrite set_other in Ex by auto; eauto]. Qed.
Lemma bounded_step : forall n o e m, bounded n e -> (forall r, In r (defs o) -> r < n) -> bounded n (fst (step o (e, m))).
Proof.
  intros n o e m B D. destruct o as [r a|r a|k b r a l|v x|k r l]; cbn [ValueSemSpec.step defs] in *.
  - apply bounded_set; auto. intros s p [= <- _]. apply D. now left.
  - apply bounded_set; auto. discriminate.
  - destruct (e a) as [c|l' p] eqn:Ea; [apply bounded_set; auto; discriminate|]. destruct b; [destruct (shares k _ _)|]; apply bounded_set; auto.
    + intros s p' [= -> _]. eauto.
    + intros s p' [= <- _]. apply D. now left.
    + discriminate.
  - destruct (e x); exact B.
  - apply bounded_set; auto. discriminate.
Qed.
Lemma bounded_run : forall n os e m, bounded n e -> (forall r, In r (flat_map defs os) -> r < n) -> bounded n (fst (run os (e, m))).
Proof.
  intros n. induction os as [|o os IH]; intros e m B D; [exact B|]. cbn [flat_map] in D. assert (B1 := bounded_step n o e m B (fun r H => D r (in_or_app _ _ _ (or_introl H)))).
  unfold ValueSemSpec.run. cbn [fold_left]. destruct (step o (e, m)) as [e1 m1]. apply IH; [exact B1|]. intros r Hr. apply D, in_or_app. now right.
Qed.
(** Nothing below [n] changes. *)
Definition keeps (n : id) (e : env) (m : mem) (e1 : env) (m1 : mem) : Prop := (forall x, x < n -> e1 x = e x) /\ forall l, (forall s, l = New s -> s < n) -> m1 l = m l.
Lemma keeps_contents : forall n e m e1 m1 x, bounded n e -> keeps n e m e1 m1 -> x < n -> contents e1 m1 x = contents e m x.
Proof. intros n e m e1 m1 x B [K1 K2] Hx. unfold ValueSemSpec.contents. rewrite K1 by auto. destruct (e x) as [c|l p] eqn:Ex; auto. rewrite K2; auto. intros s ->. exact (B x s p Ex). Qed.
Lemma contents_set : forall e m r w, contents (set e r w) m r = match w with ValueSemSpec.Val _ c => c | ValueSemSpec.Ref _ l p => read (m l) p end.
Proof. intros. unfold ValueSemSpec.contents. now rewrite set_same. Qed.
Lemma cast_op : forall nv r x e m, exists w, step (View StaticInfoCast nv r x []) (e, m) = (set e r w, m) /\ contents (set e r w) m r = contents e m x /\ forall s p, w = Ref (New s) p -> exists p', e x = Ref (New s) p'.
Proof.
  intros nv r x e m. cbn [ValueSemSpec.step map]. rewrite (cast_shares _ _ _ _ L). destruct (e x) as [c|l p] eqn:Ex; [|destruct nv]; (eexists; split; [reflexivity|]; rewrite contents_set).
  - split; [apply (cast_get _ _ _ _ L)|discriminate].
  - rewrite read_cast. split; [unfold ValueSemSpec.contents; now rewrite Ex|]. intros s p' [= -> _]. eauto.
  - split; [apply (cast_get _ _ _ _ L)|discriminate].
Qed.
Lemma copy_ops : forall n rc nv x os y e m, copy_to_type n rc nv x = (os, y) -> bounded n e -> x < n ->
  let s := run os (e, m) in keeps n e m (fst s) (snd s) /\ contents (fst s) (snd s) y = contents e m x /\ bounded (S (S (S n))) (fst s) /\ y < S (S (S n)).
Proof.
  intros n rc nv x os y e m Hc B Hx. unfold copy_to_type in Hc.
  assert (Bd : forall e1 k, bounded k e1 -> k <= S (S (S n)) -> bounded (S (S (S n))) e1) by (intros e1 k B1 Hk z s p Ez; specialize (B1 z s p Ez); lia).
  (* the first operation, when there is one *)
  assert (First : exists x1 e1, run (if rc then [View StaticInfoCast nv n x []] else []) (e, m) = (e1, m) /\ (if rc then n else x) = x1 /\ contents e1 m x1 = contents e m x /\ bounded n e1 /\ forall z, z < n -> e1 z = e z).
  { destruct rc.
    - destruct (cast_op nv n x e m) as (w & St & Hw & Hb). exists n, (set e n w). unfold ValueSemSpec.run. cbn [fold_left]. rewrite St. split; [auto|]. split; [auto|]. split; [auto|]. split.
      + apply bounded_set; auto. intros s p Ew. destruct (Hb s p Ew) as (p' & Ex). eauto.
      + intros z Hz. apply set_other. lia.
    - exists x, e. auto 6. }
  destruct First as (x1 & e1 & R1 & Ex1 & C1 & B1 & K1).
  assert (Second : exists x2 e2, run (if nv then [CopyVal (S n) x1] else []) (e1, m) = (e2, m) /\ (if nv then S n else x1) = x2 /\ contents e2 m x2 = contents e m x /\ bounded n e2 /\ forall z, z < n -> e2 z = e z).
  { destruct nv.
    - exists (S n), (set e1 (S n) (Val (contents e1 m x1))). unfold ValueSemSpec.run. cbn [fold_left ValueSemSpec.step]. split; [auto|]. split; [auto|]. split; [rewrite contents_set; exact C1|]. split; [apply bounded_set; auto; discriminate|].
      intros z Hz. rewrite set_other by lia. auto.
    - exists x1, e1. auto 6. }
  destruct Second as (x2 & e2 & R2 & Ex2 & C2 & B2 & K2).
  assert (Eos : os = (if rc then [View StaticInfoCast nv n x []] else []) ++ (if nv then [CopyVal (S n) x1] else []) ++ [CopyTo (S (S n)) x2] /\ y = S (S n)).
  { rewrite <- Ex2, <- Ex1. destruct rc, nv; injection Hc as <- <-; split; reflexivity. }
  destruct Eos as [-> ->]. cbv zeta. rewrite !run_app, R1, R2. unfold ValueSemSpec.run. cbn [fold_left ValueSemSpec.step fst snd]. split; [split|split; [|split]].
  - intros z Hz. rewrite set_other by lia. auto.
  - intros l Hl. apply store_other. intros ->. specialize (Hl _ eq_refl). lia.
  - rewrite contents_set, store_same. exact C2.
  - apply bounded_set; [apply (Bd _ n); auto|]. intros s p [= <- _]. lia.
  - lia.
Qed.
Lemma keeps_trans : forall n k e m e1 m1 e2 m2, n <= k -> keeps n e m e1 m1 -> keeps k e1 m1 e2 m2 -> keeps n e m e2 m2.
Proof.
  intros n k e m e1 m1 e2 m2 Hk [A1 A2] [B1 B2]. split.
  - intros x Hx. rewrite B1 by lia. auto.
  - intros l Hl. rewrite B2; auto. intros s Es. specialize (Hl s Es). lia.
Qed.
Lemma keeps_refl : forall n e m, keeps n e m e m. Proof. split; auto. Qed.
Lemma restored : forall rc after before ret n os ys e m, restore rc n before after ret = (os, ys) -> bounded n e -> (forall x, In x ret -> x < n) ->
  let s := run os (e, m) in keeps n e m (fst s) (snd s) /\ map (contents (fst s) (snd s)) ys = map (contents e m) ret.
Proof.
  intros rc after. induction before as [|b before IH]; intros ret n os ys e m H B Hr.
  - cbn [restore] in H. injection H as <- <-. split; [apply keeps_refl|reflexivity].
  - destruct ret as [|x ret]; [cbn [restore] in H; injection H as <- <-; split; [apply keeps_refl|reflexivity]|]. assert (Hr' : forall y, In y ret -> y < n) by (intros y Hy; apply Hr; now right).
    cbn [restore] in H. destruct b.
    + destruct (copy_to_type n (rc x) (inb x after) x) as [o1 y] eqn:Hc. destruct (restore rc (S (S (S n))) before after ret) as [o2 ys2] eqn:Hrest. injection H as <- <-.
      destruct (copy_ops n (rc x) (inb x after) x o1 y e m Hc B (Hr x (or_introl eq_refl))) as (K1 & C1 & B1 & Hy). cbv zeta. rewrite run_app. destruct (run o1 (e, m)) as [e1 m1] eqn:Ho1. cbn [fst snd] in *.
      destruct (IH ret _ _ _ e1 m1 Hrest B1) as [K2 C2]; [intros z Hz; specialize (Hr' z Hz); lia|]. cbv zeta in K2, C2. destruct (run o2 (e1, m1)) as [e2 m2]. cbn [fst snd] in *. split.
      * eapply keeps_trans; [|exact K1|exact K2]. lia.
      * cbn [map]. rewrite C2. f_equal.
        -- rewrite (keeps_contents _ _ _ _ _ y B1 K2 Hy). exact C1.
        -- apply map_ext_in. intros z Hz. apply (keeps_contents n); auto.
    + destruct (restore rc n before after ret) as [o2 ys2] eqn:Hrest. injection H as <- <-. destruct (IH ret _ _ _ e m Hrest B Hr') as [K2 C2]. cbv zeta in *. destruct (run o2 (e, m)) as [e2 m2]. cbn [fst snd] in *. split; auto.
      cbn [map]. rewrite C2. f_equal. apply (keeps_contents n); auto. apply Hr. now left.
Qed.
End Sim.

(** * The pieces of the rewriting *)
Lemma split_at_spec : forall r0 os pre a0 post, split_at r0 os = Some (pre, a0, post) -> os = pre ++ CopyTo r0 a0 :: post.
Proof.
  intros r0. induction os as [|o os IH]; intros pre a0 post H; [discriminate|].
  assert (Step : (do x <- split_at r0 os; let '(pre, a', post) := x in Some (o :: pre, a', post)) = Some (pre, a0, post) -> o :: os = pre ++ CopyTo r0 a0 :: post).
  { destruct (split_at r0 os) as [[[p q] t]|]; [|discriminate]. intros [= <- -> ->]. cbn [app]. f_equal. now apply IH. }
  destruct o as [r a|r a|k nv r a l|v x|k r l]; cbn [split_at] in H; auto. destruct (Nat.eqb_spec r r0) as [->|_]; auto. injection H as <- <- <-. reflexivity.
Qed.
Lemma ssa_unique : forall os df nv o1 o2 r, ssa df nv os -> In o1 os -> In o2 os -> In r (defs o1) -> In r (defs o2) -> o1 = o2.
Proof.
  induction os as [|o os IH]; intros df nv o1 o2 r Hs H1 H2 D1 D2; [destruct H1|]. assert (Hs0 := Hs). destruct Hs as (_ & _ & _ & Hs).
  assert (Once := ssa_def_once _ _ _ _ r Hs0). destruct H1 as [->|H1], H2 as [->|H2]; auto.
  - destruct (Once D1). apply in_flat_map. eauto.
  - destruct (Once D2). apply in_flat_map. eauto.
  - eauto.
Qed.
Lemma bool_iff : forall a b : bool, (a = true <-> b = true) -> a = b.
Proof. intros [] []; intuition congruence. Qed.
Lemma copy_results_spec : forall al os r, In r (copy_results al os) <-> exists a, In (CopyVal r a) os /\ In a al.
Proof.
  intros al os r. unfold copy_results. rewrite in_flat_map. split.
  - intros (o & Ho & H). destruct o as [q a|q a|k nv q a l|v x|k q l]; try destruct H. destruct (inb a al) eqn:E; [|destruct H]. destruct H as [<-|[]]. apply inb_In in E. eauto.
  - intros (a & Ho & Ha). exists (CopyVal r a). split; auto. rewrite (proj2 (inb_In a al) Ha). now left.
Qed.
Lemma view_results_spec : forall al os r, In r (view_results al os) <-> exists k b a l, In (View k b r a l) os /\ touches al (View k b r a l) = true.
Proof.
  intros al os r. unfold view_results. rewrite in_flat_map. split.
  - intros (o & Ho & H). destruct o as [q a|q a|k nv q a l|v x|k q l]; try destruct H. destruct (touches al (View k nv q a l)) eqn:E; [|destruct H]. destruct H as [<-|[]]. eauto 7.
  - intros (k & b & a & l & Ho & Ha). exists (View k b r a l). split; auto. rewrite Ha. now left.
Qed.
Lemma phases_all : forall r0 alF castsF post ret al av casts df nv, interpret al av casts post ret = Some (alF, castsF) -> ssa df nv post -> In r0 df ->
  (forall x, In x al -> In x df) -> (forall r a, In (r, a) casts -> In r df /\ In a df) ->
  let '(os1, ret1) := drop_overwrites alF castsF post ret in flags (view_results alF post) (drop_copies (r0 :: copy_results alF post) os1 ret1) = rewritten alF castsF post ret.
Proof.
  intros r0 alF castsF post ret al av casts df nv Hi Hs Hr0 Ha Hc. assert (Nr0 : forall o, In o post -> ~ In r0 (defs o)) by (intros o Ho Hd; apply (ssa_defined _ _ _ r0 Hs Hr0); apply in_flat_map; eauto).
  apply (phases (r0 :: copy_results alF post) (view_results alF post) alF castsF post ret al av casts df nv Hi Hs Ha Hc).
  - intros r a Ho. apply bool_iff. rewrite !inb_In. split.
    + intros [<-|Hr]; [destruct (Nr0 _ Ho); now left|]. apply copy_results_spec in Hr as (a' & Ho' & Ha'). assert (Q : CopyVal r a = CopyVal r a') by (eapply (ssa_unique post df nv _ _ r); eauto; now left). now injection Q as ->.
    + intros Hr. right. apply copy_results_spec. eauto.
  - intros r a Ho. apply inb_not. intros [<-|Hr]; [destruct (Nr0 _ Ho); now left|]. apply copy_results_spec in Hr as (a' & Ho' & _). assert (Q : CopyTo r a = CopyVal r a') by (eapply (ssa_unique post df nv _ _ r); eauto; now left). discriminate.
  - intros k b r a l Ho. apply bool_iff. rewrite inb_In. split.
    + intros Hr. apply view_results_spec in Hr as (k' & b' & a' & l' & Ho' & Ht). assert (Q : View k b r a l = View k' b' r a' l') by (eapply (ssa_unique post df nv _ _ r); eauto; now left). now rewrite Q.
    + intros Ht. apply view_results_spec. eauto 7.
Qed.
Lemma rewritten_ret : forall al casts os ret x, In x (snd (rewritten al casts os ret)) -> In x ret \/ In x (flat_map uses os).
Proof.
  intros al casts os ret. assert (Ren : forall A v l x, In x (map (rename A v) l) -> x = v \/ In x l) by (intros A v l x H; apply in_map_iff in H as (y & <- & Hy); unfold rename; destruct (inb y A); auto).
  induction os as [|o os IH]; intros x H; [now left|]. cbn [flat_map]. rewrite in_app_iff. assert (IH' : In x (snd (rewritten al casts os ret)) -> In x ret \/ In x (uses o) \/ In x (flat_map uses os)) by (intros H'; destruct (IH x H'); auto).
  destruct o as [q a|q a|k nv q a l|v y|k q l]; cbn [rewritten] in H; try (cbn [cons_op snd] in H; auto; fail).
  - destruct (inb a al); [|cbn [cons_op snd] in H; auto]. unfold rename_all in H. cbn [snd] in H. apply Ren in H as [->|H]; [right; left; now left|auto].
  - destruct (inb y al); [|cbn [cons_op snd] in H; auto]. unfold rename_all in H. cbn [snd] in H. apply Ren in H as [->|H]; [right; left; now left|auto].
Qed.
