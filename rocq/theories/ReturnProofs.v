(** Proofs about the refinement of returned values: every step of the look through keeps what is seen. *)
From Coq Require Import Bool PeanoNat Lia List.
From Verif Require Import Prelude ReturnModel ReturnSpec.
Import ListNotations.
Open Scope nat_scope.

Section Meaning.
Context {content thing : Type}.
Notation rt := (rt content thing).
Notation env := (env content thing).
Notation memory := (memory content).
Context (w : world content thing).

Lemma get_cons : forall n (x : rt) (e : env) u, get ((n, x) :: e) u = if n =? u then Some x else get e u.
Proof. intros. unfold get. cbn. destruct (n =? u); reflexivity. Qed.
Lemma gets_in : forall (e : env) l xs x, gets e l = Some xs -> In x xs -> exists v, In v l /\ get e (fst v) = Some x.
Proof.
  induction l as [|v l IH]; cbn; intros xs x H HI.
  - injection H as <-. destruct HI.
  - destruct (get e (fst v)) as [y|] eqn:G; [|discriminate]. cbn in H. destruct (gets e l) as [ys|] eqn:G'; [|discriminate]. cbn in H. injection H as <-.
    destruct HI as [<-|HI]; [exists v; auto|]. destruct (IH _ _ eq_refl HI) as (u & A & B). exists u; auto.
Qed.
Lemma bind_get : forall l xs (e e' : env) u, bind l xs e = Some e' -> ~ In u (map fst l) -> get e' u = get e u.
Proof.
  induction l as [|v l IH]; cbn; intros xs e e' u H N; destruct xs; try discriminate.
  - injection H as <-. reflexivity.
  - rewrite (IH _ _ _ _ H) by tauto. rewrite get_cons. destruct (Nat.eqb_spec (fst v) u); [tauto|reflexivity].
Qed.
Lemma bind_in : forall l xs (e e' : env) u x, bind l xs e = Some e' -> get e' u = Some x -> get e u = Some x \/ In u (map fst l) /\ In x xs.
Proof.
  induction l as [|v l IH]; cbn; intros xs e e' u x H G; destruct xs; try discriminate.
  - injection H as <-. auto.
  - destruct (IH _ _ _ _ _ H G) as [A|[A B]]; [|right; cbn; auto]. rewrite get_cons in A. destruct (Nat.eqb_spec (fst v) u); [|auto]. injection A as <-. right. cbn. auto.
Qed.
Ltac dob H x E := match type of H with context [obind ?a _] => destruct a as [x|] eqn:E; [cbn in H|discriminate] end.

Lemma run_op_get : forall o (e e' : env) m m' u, run_op w o e m = Some (e', m') -> ~ In u (map fst (results o)) -> get e' u = get e u.
Proof.
  intros o e e' m m' u H N. destruct o; cbn in *.
  - dob H x G. injection H as <- <-. rewrite get_cons. destruct (Nat.eqb_spec (fst r) u); [tauto|reflexivity].
  - dob H x G. destruct x; try discriminate. injection H as <- <-. rewrite get_cons. destruct (Nat.eqb_spec (fst r) u); [tauto|reflexivity].
  - dob H x G. destruct x; try discriminate. dob H c G'. injection H as <- <-. rewrite get_cons. destruct (Nat.eqb_spec (fst r) u); [tauto|reflexivity].
  - dob H x G. injection H as <- <-. rewrite get_cons. destruct (Nat.eqb_spec (fst r) u); [tauto|reflexivity].
  - dob H x G. dob H y G'. destruct x, y; try discriminate. destruct (match List.length m with 0 => false | S m2 => _ <=? m2 end); [|discriminate]. injection H as <- <-. reflexivity.
  - dob H xs G. dob H p G'. destruct p as [ys m1]. dob H e1 G2. injection H as <- <-. exact (bind_get _ _ _ _ _ G2 N).
Qed.
Lemma run_get : forall l (e e' : env) m m' u, run w l e m = Some (e', m') -> ~ In u (flat_map (fun o => map fst (results o)) l) -> get e' u = get e u.
Proof.
  induction l as [|o l IH]; cbn; intros e e' m m' u H N.
  - injection H as <- <-. reflexivity.
  - dob H p G. destruct p as [e1 m1]. rewrite in_app_iff in N. rewrite (IH _ _ _ _ _ H) by tauto. apply (run_op_get _ _ _ _ _ _ G). tauto.
Qed.
Lemma run_app : forall l r (e : env) m, run w (l ++ r) e m = do (e, m) <- run w l e m; run w r e m.
Proof. induction l as [|o l IH]; cbn; intros; [reflexivity|]. destruct (run_op w o e m) as [[e1 m1]|]; cbn; [apply IH|reflexivity]. Qed.

(** Whatever is bound was bound before or is a result *)
Lemma run_op_dom : forall o (e e' : env) m m' u, run_op w o e m = Some (e', m') -> get e' u <> None -> get e u <> None \/ In u (map fst (results o)).
Proof. intros o e e' m m' u H N. destruct (in_dec Nat.eq_dec u (map fst (results o))); [auto|]. left. rewrite <- (run_op_get _ _ _ _ _ _ H n). exact N. Qed.
Lemma run_dom : forall l (e e' : env) m m' u, run w l e m = Some (e', m') -> get e' u <> None -> get e u <> None \/ In u (flat_map (fun o => map fst (results o)) l).
Proof. intros l e e' m m' u H N. destruct (in_dec Nat.eq_dec u (flat_map (fun o => map fst (results o)) l)); [auto|]. left. rewrite <- (run_get _ _ _ _ _ _ H n). exact N. Qed.

(** Cells that are referred to exist *)
Definition sound (e : env) (m : memory) : Prop := forall u a, get e u = Some (Ref a) -> a < List.length m.
Lemma run_op_sound : forall o e e' m m', run_op w o e m = Some (e', m') -> sound e m -> sound e' m'.
Proof.
  intros o e e' m m' H SO u a G0. destruct o; cbn in H.
  - dob H x G. injection H as <- <-. rewrite get_cons in G0. destruct (_ =? _); [injection G0 as ->; exact (SO _ _ G)|exact (SO _ _ G0)].
  - dob H x G. destruct x; try discriminate. injection H as <- <-. rewrite app_length. cbn. rewrite get_cons in G0. destruct (_ =? _); [injection G0 as <-; lia|]. specialize (SO _ _ G0). lia.
  - dob H x G. destruct x; try discriminate. dob H c G'. injection H as <- <-. rewrite get_cons in G0. destruct (_ =? _); [discriminate|exact (SO _ _ G0)].
  - dob H x G. injection H as <- <-. rewrite get_cons in G0. destruct (_ =? _); [injection G0 as ->; exact (SO _ _ G)|exact (SO _ _ G0)].
  - dob H x G. dob H y G'. destruct x, y; try discriminate. destruct (match List.length m with 0 => false | S m2 => _ <=? m2 end); [|discriminate]. injection H as <- <-. rewrite set_nth_length. exact (SO _ _ G0).
  - dob H xs G. dob H p G'. destruct p as [ys m1]. dob H e1 G2. injection H as <- <-. pose proof (other_grows w _ _ _ _ _ G') as GR.
    destruct (bind_in _ _ _ _ _ _ G2 G0) as [A|[_ A]]; [specialize (SO _ _ A); lia|].
    destruct (other_results w _ _ _ _ _ _ G' A) as [B|B]; [|lia]. destruct (gets_in _ _ _ _ G B) as (v & _ & C). specialize (SO _ _ C). lia.
Qed.
Lemma run_sound : forall l e e' m m', run w l e m = Some (e', m') -> sound e m -> sound e' m'.
Proof.
  induction l as [|o l IH]; cbn; intros e e' m m' H SO; [injection H as <- <-; exact SO|].
  dob H p G. destruct p as [e1 m1]. exact (IH _ _ _ _ H (run_op_sound _ _ _ _ _ G SO)).
Qed.

(** A cell that only some names refer to, and that only casts among these names use *)
Definition kept (C : list nat) (a : nat) (c : content) (e : env) (m : memory) : Prop :=
  (forall u, get e u = Some (Ref a) -> In u C) /\ nth_error m a = Some c.
Definition closed (C : list nat) (l : list op) : Prop :=
  forall o, In o l -> (exists u, In u (operands o) /\ In (fst u) C) -> exists r v, (o = Cast r v \/ o = Derefine r v) /\ In (fst r) C.
Lemma run_op_kept : forall C a c o e e' m m', run_op w o e m = Some (e', m') -> closed C [o] -> kept C a c e m -> kept C a c e' m'.
Proof.
  intros C a c o e e' m m' H CL [K1 K2]. specialize (CL o (or_introl eq_refl)).
  assert (CA : forall r v, o = Cast r v \/ o = Derefine r v -> kept C a c e' m').
  { intros r v E. assert (R : run_op w o e m = do x <- get e (fst v); Some ((fst r, x) :: e, m)) by (destruct E; subst o; reflexivity).
    rewrite H in R. symmetry in R. dob R x G. injection R as <- <-. split; [|exact K2]. intros u. rewrite get_cons. destruct (Nat.eqb_spec (fst r) u) as [<-|]; [|apply K1].
    intros Q. injection Q as ->. assert (V : exists u, In u (operands o) /\ In (fst u) C) by (exists v; split; [destruct E; subst o; cbn; auto|exact (K1 _ G)]).
    destruct (CL V) as (r' & v' & E' & I). destruct E, E'; subst o; try discriminate; match goal with E : _ = _ |- _ => injection E as -> -> end; exact I. }
  assert (LT : a < List.length m) by (apply nth_error_Some; rewrite K2; discriminate).
  destruct o; try (eapply CA; eauto; fail); clear CA.
  - cbn in H. dob H x G. destruct x; try discriminate. injection H as <- <-. split.
    + intros u. rewrite get_cons. destruct (_ =? _); [|apply K1]. intros Q. injection Q as Q. lia.
    + rewrite nth_error_app1 by exact LT. exact K2.
  - cbn in H. dob H x G. destruct x; try discriminate. dob H c' G'. injection H as <- <-. split; [|exact K2].
    intros u. rewrite get_cons. destruct (_ =? _); [discriminate|apply K1].
  - cbn in H. dob H x G. dob H y G'. destruct x as [c'| |], y as [|a'|]; try discriminate. destruct (match List.length m with 0 => false | S m2 => _ <=? m2 end); [|discriminate]. injection H as <- <-. split; [exact K1|].
    rewrite nth_error_set_nth_neq; [exact K2|]. intros ->.
    destruct (CL ltac:(exists target; split; [cbn; auto|exact (K1 _ G')])) as (r' & v' & [E|E] & _); discriminate.
  - cbn in H. dob H xs G. dob H p G'. destruct p as [ys m1]. dob H e1 G2. injection H as <- <-.
    assert (NI : ~ In (Ref a) xs).
    { intros I. destruct (gets_in _ _ _ _ G I) as (v & V1 & V2). destruct (CL ltac:(exists v; split; [exact V1|exact (K1 _ V2)])) as (r' & v' & [E|E] & _); discriminate. }
    split.
    + intros u Q. destruct (bind_in _ _ _ _ _ _ G2 Q) as [A|[_ A]]; [exact (K1 _ A)|]. destruct (other_results w _ _ _ _ _ _ G' A) as [B|B]; [contradiction|lia].
    + rewrite (other_local w _ _ _ _ _ _ G' LT NI). exact K2.
Qed.
Lemma run_kept : forall C a c l e e' m m', run w l e m = Some (e', m') -> closed C l -> kept C a c e m -> kept C a c e' m'.
Proof.
  induction l as [|o l IH]; cbn; intros e e' m m' H CL K; [injection H as <- <-; exact K|].
  dob H p G. destruct p as [e1 m1]. apply (IH _ _ _ _ H); [intros o' I; apply CL; right; exact I|].
  apply (run_op_kept _ _ _ _ _ _ _ _ G); [|exact K]. intros o' [<-|[]]. apply CL. left. reflexivity.
Qed.

(** ** The body of a function, run from its arguments *)
Context (args : list value) (l : list op) (ret : list value) (xs : list rt) (e0 ef : env) (m0 mf : memory).
Hypothesis args_bound : bind args xs [] = Some e0.
Hypothesis ran : run w l e0 m0 = Some (ef, mf).
Hypothesis start_sound : sound e0 m0.
Hypothesis once : NoDup (map fst args ++ flat_map (fun o => map fst (results o)) l).

Lemma parts : forall o, In o l -> exists pre post e1 m1 e2 m2,
  l = pre ++ o :: post /\ run_op w o e1 m1 = Some (e2, m2) /\ run w post e2 m2 = Some (ef, mf) /\ sound e1 m1
  /\ (forall u, In u (map fst (results o)) -> get ef u = get e2 u) /\ (forall u, get e1 u <> None -> get ef u = get e1 u).
Proof.
  intros o I. destruct (in_split _ _ I) as (pre & post & E). pose proof ran as R. rewrite E, run_app in R.
  dob R p G. destruct p as [e1 m1]. dob R p G'. destruct p as [e2 m2]. exists pre, post, e1, m1, e2, m2.
  pose proof once as ND. rewrite E, flat_map_app, app_assoc in ND. cbn in ND. destruct (NoDup_app_inv _ _ _ ND) as (_ & ND2 & D1).
  destruct (NoDup_app_inv _ _ _ ND2) as (_ & _ & D2).
  split; [exact E|]. split; [exact G'|]. split; [exact R|]. split; [exact (run_sound _ _ _ _ _ G start_sound)|]. split.
  - intros u U. apply (run_get _ _ _ _ _ _ R). exact (D2 _ U).
  - intros u U. assert (B : In u (map fst args ++ flat_map (fun o => map fst (results o)) pre)).
    { rewrite in_app_iff. destruct (run_dom _ _ _ _ _ _ G U) as [A|A]; [|auto]. left. destruct (in_dec Nat.eq_dec u (map fst args)); [assumption|]. rewrite (bind_get _ _ _ _ _ args_bound n) in A. destruct A. reflexivity. }
    pose proof (D1 _ B) as N. rewrite in_app_iff in N. rewrite (run_get _ _ _ _ _ _ R) by tauto. apply (run_op_get _ _ _ _ _ _ G'). tauto.
Qed.

Lemma cast_same : forall r v, In (Cast r v) l \/ In (Derefine r v) l -> get ef (fst r) = get ef (fst v) /\ get ef (fst v) <> None.
Proof.
  intros r v I. assert (X : exists o, In o l /\ (o = Cast r v \/ o = Derefine r v)) by (destruct I; eauto). destruct X as (o & J & E).
  destruct (parts o J) as (pre & post & e1 & m1 & e2 & m2 & _ & R & _ & _ & A & B).
  assert (Q : run_op w o e1 m1 = do x <- get e1 (fst v); Some ((fst r, x) :: e1, m1)) by (destruct E; subst o; reflexivity).
  rewrite R in Q. symmetry in Q. dob Q x G. injection Q as <- <-.
  rewrite (A (fst r)) by (destruct E; subst o; cbn; auto). rewrite get_cons, Nat.eqb_refl. rewrite (B (fst v)) by congruence. rewrite G. split; [reflexivity|discriminate].
Qed.
Lemma copy_kept : forall C r v, In (CopyToNon r v) l -> In (fst r) C -> closed C l ->
  exists c a, get ef (fst r) = Some (Ref a) /\ nth_error mf a = Some c /\ get ef (fst v) = Some (VT c).
Proof.
  intros C r v I IC CL. destruct (parts _ I) as (pre & post & e1 & m1 & e2 & m2 & E & R & R' & SO & A & B).
  cbn in R. dob R x G. destruct x as [c| |]; try discriminate. injection R as <- <-. exists c, (List.length m1).
  split; [rewrite (A (fst r)) by (cbn; auto); rewrite get_cons, Nat.eqb_refl; reflexivity|].
  split; [|rewrite B by congruence; exact G].
  refine (proj2 (run_kept C (List.length m1) c post _ _ _ _ R' _ _)).
  - intros o J. apply CL. rewrite E. apply in_or_app. right. right. exact J.
  - split.
    + intros u. rewrite get_cons. destruct (Nat.eqb_spec (fst r) u) as [<-|]; [auto|]. intros Q. specialize (SO _ _ Q). lia.
    + rewrite nth_error_app2 by lia. rewrite Nat.sub_diag. reflexivity.
Qed.

(** ** Users *)
Lemma mentions_in : forall v vs, mentions v vs = true <-> exists u, In u vs /\ fst u = fst v.
Proof. intros. unfold mentions. rewrite existsb_exists. split; intros (u & A & B); exists u; (split; [exact A|]); apply Nat.eqb_eq; exact B. Qed.
Lemma one_user : forall v o o', users l ret v <= 1 -> In o l -> uses o v -> In o' l -> uses o' v -> o = o'.
Proof.
  intros v o o' U I1 U1 I2 U2. unfold users in U.
  assert (F : List.length (filter (fun o => mentions v (operands o)) l) <= 1) by lia.
  assert (A : In o (filter (fun o => mentions v (operands o)) l)) by (apply filter_In; split; [exact I1|apply mentions_in; exact U1]).
  assert (B : In o' (filter (fun o => mentions v (operands o)) l)) by (apply filter_In; split; [exact I2|apply mentions_in; exact U2]).
  destruct (filter _ l) as [|x [|y r]]; cbn in F; [destruct A| |lia]. destruct A as [<-|[]], B as [<-|[]]. reflexivity.
Qed.
Lemma no_user : forall v o, users l ret v <= 1 -> In v ret -> In o l -> uses o v -> False.
Proof.
  intros v o U I1 I2 U2. unfold users in U.
  replace (mentions v ret) with true in U by (symmetry; apply mentions_in; eauto).
  assert (B : In o (filter (fun o => mentions v (operands o)) l)) by (apply filter_In; split; [exact I2|apply mentions_in; exact U2]).
  destruct (filter _ l); [destruct B|cbn in U; lia].
Qed.
Lemma defining_in : forall v o, defining l v = Some o -> In o l /\ exists r, In r (results o) /\ fst r = fst v.
Proof. intros v o H. unfold defining in H. apply find_some in H. destruct H as [A B]. split; [exact A|]. apply mentions_in. exact B. Qed.

Hypothesis types : Forall typed_op l.
Hypothesis one : one_type l ret.
Hypothesis renamed : forall r v, In (Cast r v) l \/ In (Derefine r v) l -> (forall n, snd r <> VTensor n) -> users l ret r <= 1.

Definition used (v : value) : Prop := In v ret \/ exists o, In o l /\ In v (operands o).
Lemma defining_is : forall v o, used v -> defining l v = Some o -> In o l /\ In v (results o).
Proof.
  intros v o U D. destruct (defining_in _ _ D) as (I & r & R & E). split; [exact I|].
  assert (v = r) as ->; [|exact R]. destruct U as [U|(o' & A & B)]; [exact (one o v r o I R (or_intror U) (eq_sym E))|exact (one o v r o' I R (or_introl (conj A B)) (eq_sym E))].
Qed.
Definition is_value_tensor (v : value) : Prop := exists n, snd v = VTensor n.
Definition same_seen (v v' : value) : Prop := forall x, get ef (fst v) = Some x -> exists x', get ef (fst v') = Some x' /\ seen mf x' = seen mf x.
Lemma same_refl : forall v, same_seen v v. Proof. intros v x H. eauto. Qed.
Lemma same_trans : forall a b c, same_seen a b -> same_seen b c -> same_seen a c.
Proof. intros a b c A B x H. destruct (A _ H) as (y & Y & E). destruct (B _ Y) as (z & Zz & E'). exists z. split; [exact Zz|congruence]. Qed.
Lemma same_cast : forall r v, In (Cast r v) l \/ In (Derefine r v) l -> same_seen r v.
Proof. intros r v I x H. destruct (cast_same _ _ I) as [A _]. exists x. split; [congruence|reflexivity]. Qed.

(** From a value tensor on, only casts are seen through *)
Lemma see_value : forall fuel v, used v -> is_value_tensor v -> same_seen v (see_through fuel l ret v) /\ used (see_through fuel l ret v).
Proof.
  induction fuel as [|fuel IH]; intros v U V; [split; [apply same_refl|exact U]|]. cbn.
  destruct (defining l v) as [o|] eqn:D; [|split; [apply same_refl|exact U]].
  destruct (defining_is _ _ U D) as [I R]. pose proof (proj1 (Forall_forall _ _) types _ I) as T.
  destruct o; try (split; [apply same_refl|exact U]); cbn in R; destruct R as [R|[]]; subst r.
  - destruct V as [n V]. specialize (T _ V). destruct (IH v0) as [A B]; [right; eexists; split; [exact I|cbn; auto]|exact T|]. split; [|exact B].
    eapply same_trans; [|exact A]. apply same_cast. auto.
  - destruct T as [[n T] _]. destruct V as [n' V]. congruence.
  - destruct V as [n V]. specialize (T _ V). destruct (IH v0) as [A B]; [right; eexists; split; [exact I|cbn; auto]|exact T|]. split; [|exact B].
    eapply same_trans; [|exact A]. apply same_cast. auto.
Qed.
Definition guarded (v : value) : Prop := users l ret v <= 1 -> exists C, In (fst v) C /\ closed C l.
Lemma guarded_start : forall v, In v ret -> guarded v.
Proof.
  intros v I U. exists [fst v]. split; [left; reflexivity|]. intros o J (u & A & [B|[]]). destruct (no_user v o U I J). exists u. auto.
Qed.
Lemma guarded_step : forall r v, In (Cast r v) l \/ In (Derefine r v) l -> (forall n, snd r <> VTensor n) -> guarded r -> guarded v.
Proof.
  intros r v I N G U. destruct (G (renamed _ _ I N)) as (C & A & B). exists (fst v :: C). split; [left; reflexivity|].
  intros o J (u & A' & [B'|B']).
  - assert (X : exists o', In o' l /\ (o' = Cast r v \/ o' = Derefine r v)) by (destruct I; eauto). destruct X as (o' & J' & E').
    assert (o = o') as ->. { apply (one_user v); try assumption; [exists u; auto|]. exists v. split; [destruct E'; subst o'; cbn; auto|reflexivity]. }
    exists r, v. split; [exact E'|right; exact A].
  - destruct (B o J) as (r' & v' & E & F); [eauto|]. exists r', v'. split; [exact E|right; exact F].
Qed.
Lemma value_tensor_dec : forall v : value, is_value_tensor v \/ forall n, snd v <> VTensor n.
Proof. intros [i t]. destruct t; [left; eexists; reflexivity|right; discriminate|right; discriminate]. Qed.
Lemma see_any : forall fuel v, used v -> guarded v -> same_seen v (see_through fuel l ret v) /\ used (see_through fuel l ret v).
Proof.
  induction fuel as [|fuel IH]; intros v U G; [split; [apply same_refl|exact U]|].
  destruct (value_tensor_dec v) as [V|V]; [apply see_value; assumption|]. cbn.
  destruct (defining l v) as [o|] eqn:D; [|split; [apply same_refl|exact U]].
  destruct (defining_is _ _ U D) as [I R]. pose proof (proj1 (Forall_forall _ _) types _ I) as T.
  destruct o; try (split; [apply same_refl|exact U]); cbn in R; destruct R as [R|[]]; subst r.
  - destruct (IH v0) as [A B]; [right; eexists; split; [exact I|cbn; auto]|apply (guarded_step v v0); auto|].
    split; [|exact B]. eapply same_trans; [|exact A]. apply same_cast. auto.
  - destruct (Nat.eqb_spec (users l ret v) 1) as [E|_]; [|split; [apply same_refl|exact U]].
    destruct (G ltac:(lia)) as (C & IC & CL). destruct (copy_kept _ _ _ I IC CL) as (c & a & A1 & A2 & A3).
    destruct (see_value fuel v0) as [A B]; [right; eexists; split; [exact I|cbn; auto]|exact (proj2 T)|]. split; [|exact B].
    eapply same_trans; [|exact A]. intros x H. rewrite A1 in H. injection H as <-. exists (VT c). split; [exact A3|]. cbn. rewrite A2. reflexivity.
  - destruct (IH v0) as [A B]; [right; eexists; split; [exact I|cbn; auto]|apply (guarded_step v v0); auto|].
    split; [|exact B]. eapply same_trans; [|exact A]. apply same_cast. auto.
Qed.
End Meaning.
