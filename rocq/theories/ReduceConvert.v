(** Operations made to work on value tensors do what they did. *)
From Coq Require Import Bool Ascii String PeanoNat Lia List.
From Verif Require Import Prelude ReduceModel ReduceSpec ReduceProofs ReduceExpand.
Import ListNotations.
Open Scope nat_scope.

Lemma weaken2 {A C} (P Q : A -> C -> Prop) l l' : (forall a b, P a b -> Q a b) -> Forall2 P l l' -> Forall2 Q l l'.
Proof. intros H. induction 1; constructor; auto. Qed.
Section Convert.
Context {content thing : Type} (tr : traits) (w : world content thing).
Notation env := (env content thing). Notation memory := (memory content thing). Notation rt := (rt content thing).
Context (l0 : list op) (start : list nat) (B : nat) (W : well_formed l0 start B).
Context (KL : forall name rs args, In (Aten name rs args) l0 -> value_semantics tr name = true \/
  forall xs m ys m1, other w name (map fst rs) xs m = Some (ys, m1) -> forall a items, m a = Some (Items items) -> ~ In a (map fst rs) -> m1 a = Some (Items items)).
Definition low (a : nat) : Prop := a < B.

(** What holds of the environment and memory of a run *)
Record state (pre : list op) (e : env) (m : memory) : Prop := {
  s_closed : closed low m;
  s_env : forall i x, e i = Some x -> In i (start ++ numbers pre) /\ below low x;
  s_mem : forall a, m a <> None -> In a (start ++ numbers pre);
  s_list : forall r els, In (ListC r els) pre -> exists xs, e (fst r) = Some (Ref (fst r)) /\ m (fst r) = Some (Items xs) /\ Forall2 (fun v x => e (fst v) = Some x /\ fits m (snd v) x = true) els xs;
  s_deref : forall r u, In (Deref r u) pre -> exists x, e (fst r) = Some x /\ e (fst u) = Some x /\ fits m (snd u) x = true }.

Lemma done_low pre post i : l0 = pre ++ post -> In i (start ++ numbers pre) -> i < B.
Proof. apply (done_below l0 start B W). Qed.
Lemma fresh pre o post i : l0 = pre ++ o :: post -> In i (map fst (results o)) -> i < B /\ ~ In i (start ++ numbers pre).
Proof. apply (fresh_results l0 start B W). Qed.

(** Lists stay as they are *)
Lemma puts_items : forall rs ds (e : env) m e2 m2, puts rs ds e m = Some (e2, m2) -> forall a, ~ In a (map fst rs) -> m2 a = m a.
Proof.
  induction rs as [|r rs IH]; intros [|d ds] e m e2 m2 H a N1; cbn [puts] in H; try discriminate; [injection H as _ <-; reflexivity|].
  destruct (put r d e m) as [[e1 m1]|] eqn:P1; [|discriminate]. cbn [obind] in H. rewrite (IH _ _ _ _ _ H a) by (intros I1; apply N1; right; exact I1).
  unfold put in P1. destruct d as [c|t], (snd r); try discriminate; injection P1 as _ <-; try reflexivity. apply upd_neq. intros ->. apply N1. left. reflexivity.
Qed.
Lemma write_items f r (xs : list rt) e m e2 m2 : write f r xs e m = Some (e2, m2) -> forall a items, m a = Some (Items items) -> m2 a = Some (Items items).
Proof.
  intros H. destruct (write_inv _ _ _ _ _ _ _ H) as (b & c0 & c & args & more & _ & Mb & _ & _ & _ & ->). intros a items Ma. rewrite upd_neq; [exact Ma|]. intros ->. congruence.
Qed.
Lemma exec_items o (xs : list rt) e m e2 m2 : In o l0 -> exec tr w o xs e m = Some (e2, m2) -> forall a items, m a = Some (Items items) -> ~ In a (map fst (results o)) -> m2 a = Some (Items items).
Proof.
  intros Io. destruct o as [name rs args|name rs args|r l|r v|r v|r v|r v|v t|r k i|r k|r b|r|r v|r v d|r args]; cbn [exec results].
  - destruct (value_semantics tr name) eqn:V.
    + intros H a items Ma N1. destruct (mapM (read m) xs); [|discriminate]. cbn [obind] in H. destruct (computes w name l); [|discriminate]. cbn [obind] in H. rewrite (puts_items _ _ _ _ _ _ H a N1). exact Ma.
    + destruct (in_place tr name).
      * destruct rs as [|r [|]]; try discriminate. intros H a items Ma _. exact (write_items _ _ _ _ _ _ _ H a items Ma).
      * intros H a items Ma N1. destruct (other w name (map fst rs) xs m) as [[ys m1]|] eqn:O; [|discriminate]. cbn [obind] in H. destruct (binds rs ys e); [|discriminate]. cbn in H. injection H as _ <-.
        destruct (KL _ _ _ Io) as [V'|K]; [congruence|]. exact (K xs m ys m1 O a items Ma N1).
  - intros H a items Ma N1. destruct (mapM (read m) xs); [|discriminate]. cbn [obind] in H. destruct (operators w name l); [|discriminate]. cbn [obind] in H. rewrite (puts_items _ _ _ _ _ _ H a N1). exact Ma.
  - intros [= _ <-] a items Ma N1. rewrite upd_neq; [exact Ma|]. intros ->. apply N1. left. reflexivity.
  - destruct xs as [|x [|y xs]]; try discriminate. intros [= _ <-] a items Ma N1. exact Ma.
  - destruct xs as [|x [|y xs]]; try discriminate. destruct (tensor_at m x); [|discriminate]. cbn. intros [= _ <-] a items Ma N1. exact Ma.
  - destruct xs as [|[c|a0|y] [|y' xs]]; try discriminate. intros [= _ <-] a items Ma N1. rewrite upd_neq; [exact Ma|]. intros ->. apply N1. left. reflexivity.
  - destruct xs as [|x [|y xs]]; try discriminate. intros [= _ <-] a items Ma N1. exact Ma.
  - destruct xs as [|[c|a0|y] [|[c'|b|y'] [|z xs]]]; try discriminate. destruct (tensor_at m (Ref b)) eqn:Tb; [|discriminate]. cbn [obind]. intros [= _ <-] a items Ma _. rewrite upd_neq; [exact Ma|]. intros ->. cbn in Tb. rewrite Ma in Tb. discriminate.
  - intros [= _ <-] a items Ma N1. rewrite upd_neq; [exact Ma|]. intros ->. apply N1. left. reflexivity.
  - intros [= _ <-] a items Ma N1. exact Ma.
  - intros [= _ <-] a items Ma N1. exact Ma.
  - intros [= _ <-] a items Ma N1. exact Ma.
  - destruct xs as [|x [|y xs]]; try discriminate. destruct (tensor_at m x); [|discriminate]. cbn. intros [= _ <-] a items Ma N1. exact Ma.
  - destruct xs as [|x [|[c'|a0|y] [|z xs]]]; try discriminate. destruct (tensor_at m x) as [c|]; [|discriminate]. cbn [obind].
    destruct (is_of w y c); [intros [= _ <-] a items Ma N1; exact Ma|destruct (cast_to w y c) as [c2|]; [|discriminate]; cbn; intros [= _ <-] a items Ma N1; rewrite upd_neq; [exact Ma|]; intros ->; apply N1; left; reflexivity].
  - intros H a items Ma _. exact (write_items _ _ _ _ _ _ _ H a items Ma).
Qed.

Lemma state_step pre o post e m e2 m2 : l0 = pre ++ o :: post -> state pre e m -> run_op tr w o e m = Some (e2, m2) -> state (pre ++ [o]) e2 m2.
Proof.
  intros E [S1 S2 S3 S4 S5] Ro.
  assert (K : Forall low (map fst (results o))) by (apply Forall_forall; intros i I1; exact (proj1 (fresh _ _ _ _ E I1))).
  destruct (run_op_rel tr w low [] o e m e2 m2 e m K (fun a _ => eq_refl) S1) as (e2' & m2' & _ & (_ & C & Dn & Nn & Kd)); [intros v y _ Hy; split; [exact Hy|exact (proj2 (S2 _ _ Hy))]|exact Ro|].
  assert (Old : forall i x, e i = Some x -> e2 i = Some x). { intros i x Hx. rewrite (proj1 (Nn i (fun I1 => proj2 (fresh _ _ _ _ E I1) (proj1 (S2 _ _ Hx))))). exact Hx. }
  assert (OldF : forall t i x, e i = Some x -> fits m t x = true -> fits m2 t x = true).
  { intros t i x Hx Fx. destruct t; try exact Fx. cbn [fits] in Fx |- *. destruct x as [c|a|y]; try discriminate. destruct (m a) as [[c|]|] eqn:Ma; try discriminate.
    assert (Ia : ~ In a (map fst (results o))). { intros I1. apply (proj2 (fresh _ _ _ _ E I1)). apply S3. rewrite Ma. discriminate. }
    specialize (Kd a Ia). rewrite Ma in Kd. destruct (m2 a) as [[c'|]|]; try discriminate. reflexivity. }
  unfold run_op in Ro. destruct (mapM (fetch e m) (operands o)) as [xs|] eqn:Q; [|discriminate]. cbn [obind] in Ro.
  assert (Io : In o l0) by (rewrite E; apply in_or_app; right; left; reflexivity).
  constructor.
  - exact C.
  - intros i x Hx. rewrite numbers_snoc. destruct (in_dec Nat.eq_dec i (map fst (results o))) as [I1|I1].
    + destruct (Dn i I1) as (_ & y & Ey & By). rewrite Ey in Hx. injection Hx as ->. split; [rewrite !in_app_iff; tauto|exact By].
    + rewrite (proj1 (Nn i I1)) in Hx. destruct (S2 i x Hx) as [X Y]. split; [apply in_app_or in X; rewrite !in_app_iff; tauto|exact Y].
  - intros a Ha. rewrite numbers_snoc. destruct (in_dec Nat.eq_dec a (map fst (results o))) as [I1|I1]; [rewrite !in_app_iff; tauto|].
    assert (X : In a (start ++ numbers pre)). { apply S3. intros Z. specialize (Kd a I1). rewrite Z in Kd. destruct (m2 a) as [[|]|]; try discriminate. exact (Ha eq_refl). }
    apply in_app_or in X. rewrite !in_app_iff. tauto.
  - intros r els I1. apply in_app_or in I1. destruct I1 as [I1|[->|[]]].
    + destruct (S4 r els I1) as (ys & X1 & X2 & X3). exists ys. split; [exact (Old _ _ X1)|]. split.
      * apply (exec_items o xs e m e2 m2 Io Ro); [exact X2|]. intros I2. apply (proj2 (fresh _ _ _ _ E I2)). exact (proj1 (S2 _ _ X1)).
      * clear -X3 Old OldF. induction X3 as [|v x l l' [Y1 Y2] F IH]; constructor; [split; [exact (Old _ _ Y1)|exact (OldF _ _ _ Y1 Y2)]|exact IH].
    + cbn [exec] in Ro. injection Ro as <- <-. exists xs. split; [apply upd_eq|]. split; [apply upd_eq|].
      cbn [operands] in Q. apply mapM_Forall2 in Q. refine (weaken2 _ _ _ _ _ Q). intros v x Hx. destruct (fetch_env _ _ _ _ Hx) as [Y1 Y2]. split; [exact (Old _ _ Y1)|exact (OldF _ _ _ Y1 Y2)].
  - intros r u I1. apply in_app_or in I1. destruct I1 as [I1|[->|[]]].
    + destruct (S5 r u I1) as (x & X1 & X2 & X3). exists x. split; [exact (Old _ _ X1)|]. split; [exact (Old _ _ X2)|]. exact (OldF _ _ _ X2 X3).
    + cbn [operands mapM] in Q. destruct (fetch e m u) as [x|] eqn:Qu; [|discriminate]. cbn in Q. injection Q as <-. cbn [exec] in Ro. injection Ro as <- <-.
      destruct (fetch_env _ _ _ _ Qu) as [Y1 Y2]. exists x. split; [apply upd_eq|]. split; [exact (Old _ _ Y1)|exact (OldF _ _ _ Y1 Y2)].
Qed.

(** The operation that makes a value *)
Lemma defining_done pre post v o : l0 = pre ++ post -> In (fst v) (start ++ numbers pre) -> defining l0 v = Some o -> In o pre /\ exists r, In r (results o) /\ fst r = fst v.
Proof.
  intros E Iv H. unfold defining in H. apply find_some in H. destruct H as [H1 H2]. apply existsb_exists in H2. destruct H2 as (r & R1 & R2). unfold is in R2. apply Nat.eqb_eq in R2.
  split; [|exists r; split; assumption]. rewrite E in H1. apply in_app_or in H1. destruct H1 as [H1|H1]; [exact H1|]. exfalso.
  destruct W as [D _]. rewrite E, numbers_app, app_assoc in D. destruct (NoDup_app_inv _ _ _ D) as (_ & _ & D3). apply (D3 _ Iv). unfold numbers. apply in_flat_map. exists o. split; [exact H1|]. rewrite <- R2. apply in_map. exact R1.
Qed.

(** ** Operands *)
Section Operands.
Context (pre post : list op) (E : l0 = pre ++ post) (e : env) (m : memory) (St : state pre e m).
Definition over (e' : env) (m' : memory) : Prop := (forall i x, e i = Some x -> e' i = Some x) /\ agree low m m'.
Lemma over_low e' m' e2 m2 k : B <= k -> over e' m' -> (forall i, i < k -> e2 i = e' i) -> (forall a, a < k -> m2 a = m' a) -> over e2 m2.
Proof.
  intros Bk [O1 O2] H1 H2. split.
  - intros i x Hx. rewrite H1; [exact (O1 _ _ Hx)|]. pose proof (done_low _ _ _ E (proj1 (s_env _ _ _ St _ _ Hx))). lia.
  - intros a La. rewrite H2; [exact (O2 a La)|]. unfold low in La. lia.
Qed.
Lemma copy_elements_ok : forall els xs ds next os vs next' e' m', Forall2 (fun v x => e (fst v) = Some x /\ fits m (snd v) x = true) els xs -> mapM (read1 m) xs = Some ds ->
  copy_elements els next = (os, vs, next') -> B <= next -> over e' m' ->
  exists e2 xs', run tr w os e' m' = Some (e2, m') /\ next <= next' /\ (forall i, i < next -> e2 i = e' i)
    /\ Forall (fun x : rt => below low x) xs' /\ (forall m3 : memory, agree low m m3 -> mapM (read1 m3) xs' = Some ds)
    /\ forall (e3 : env) (m3 : memory), (forall i, i < next' -> e3 i = e2 i) -> agree low m m3 -> mapM (fetch e3 m3) vs = Some xs'.
Proof.
  induction els as [|v els IH]; intros xs ds next os vs next' e' m' F Rd Ce Bn Ov; inversion F as [|? x ? xs0 [Hv Fv] F0]; subst xs; cbn [copy_elements mapM] in *.
  - injection Rd as <-. injection Ce as <- <- <-. exists e', []. split; [reflexivity|]. split; [lia|]. split; [reflexivity|]. split; [constructor|]. split; [reflexivity|]. reflexivity.
  - destruct (read1 m x) as [d|] eqn:Rx; [|discriminate]. cbn [obind] in Rd. destruct (mapM (read1 m) xs0) as [ds0|] eqn:Rd0; [|discriminate]. cbn in Rd. injection Rd as <-.
    destruct (s_env _ _ _ St _ _ Hv) as [Dv Lx]. pose proof (done_low _ _ _ E Dv) as Bv.
    assert (Generic : forall os0 vs0 e1, copy_elements els next = (os0, vs0, next') -> over e1 m' -> (forall t, snd v = t -> fits m t x = true) -> is_non_value (snd v) = false ->
      exists e2 xs', run tr w os0 e1 m' = Some (e2, m') /\ next <= next' /\ (forall i, i < next -> e2 i = e1 i) /\ Forall (fun x : rt => below low x) xs' /\ (forall m3 : memory, agree low m m3 -> mapM (read1 m3) xs' = Some (d :: ds0))
      /\ forall (e3 : env) (m3 : memory), (forall i, i < next' -> e3 i = e2 i) -> agree low m m3 -> mapM (fetch e3 m3) (v :: vs0) = Some xs').
    { intros os0 vs0 e1 Ce0 Ov1 Ft Nv. destruct (IH xs0 ds0 next os0 vs0 next' e1 m' F0 Rd0 Ce0 Bn Ov1) as (e2 & xs' & R1 & G & S1 & Lo & Rr & Fe).
      exists e2, (x :: xs'). split; [exact R1|]. split; [exact G|]. split; [exact S1|]. split; [constructor; assumption|]. split.
      - intros m3 A3. cbn [mapM]. rewrite (read1_agree low m m3 x A3 Lx), Rx. cbn. rewrite (Rr m3 A3). reflexivity.
      - intros e3 m3 H3 A3. cbn [mapM]. unfold fetch at 1. rewrite (H3 (fst v)) by lia. rewrite (S1 (fst v)) by lia. rewrite (proj1 Ov1 _ _ Hv). cbn [obind].
        rewrite (fits_kind m m3) by (intros a ->; rewrite (A3 a Lx); reflexivity). rewrite Fv. cbn. rewrite (Fe e3 m3 H3 A3). reflexivity. }
    destruct (snd v) as [i|i|t|t| |i] eqn:Tv;
      try (destruct (copy_elements els next) as [[os0 vs0] n0] eqn:Ce0; injection Ce as <- <- <-; apply (Generic os0 vs0 e' eq_refl Ov); [intros t0 <-; exact Fv|reflexivity]).
    destruct (copy_elements els (S next)) as [[os0 vs0] n0] eqn:Ce0. injection Ce as <- <- <-.
    cbn [fits] in Fv. destruct x as [c|a|y]; try discriminate. destruct (m a) as [[c|]|] eqn:Ma; try discriminate. cbn [read1] in Rx. rewrite Ma in Rx. injection Rx as <-.
    assert (Ma' : m' a = Some (Tensor c)) by (rewrite (proj2 Ov a Lx); exact Ma).
    assert (Ov1 : over (upd e' next (Val c)) m'). { apply (over_low e' m' _ _ next Bn Ov); [intros i0 Bi; apply upd_neq; lia|reflexivity]. }
    destruct (IH xs0 ds0 (S next) os0 vs0 n0 (upd e' next (Val c)) m' F0 Rd0 Ce0 ltac:(lia) Ov1) as (e2 & xs' & R1 & G & S1 & Lo & Rr & Fe).
    exists e2, (Val c :: xs'). split.
    { cbn [run]. unfold run_op. cbn [operands mapM]. destruct v as [v tv]. cbn [fst snd] in *. subst tv. rewrite (fetch_val e' m' v (NT i) (Ref a)); [|exact (proj1 Ov _ _ Hv)|cbn; rewrite Ma'; reflexivity]. cbn [obind exec tensor_at fst]. rewrite Ma'. cbn [obind]. exact R1. }
    split; [lia|]. split; [intros i0 Bi; rewrite S1 by lia; apply upd_neq; lia|]. split; [constructor; [exact Logic.I|exact Lo]|]. split.
    + intros m3 A3. cbn [mapM read1 obind]. rewrite (Rr m3 A3). reflexivity.
    + intros e3 m3 H3 A3. cbn [mapM]. rewrite (fetch_val e3 m3 next (VT i) (Val c)); [|rewrite H3 by lia; rewrite S1 by lia; apply upd_eq|reflexivity]. cbn [obind]. rewrite (Fe e3 m3 H3 A3). reflexivity.
Qed.
Lemma convert_operand_ok v x ar next os v' next' e' m' : fetch e m v = Some x -> read m x = Some ar -> convert_operand l0 v next = Some (os, v', next') -> B <= next -> over e' m' ->
  exists e2 m2 x', run tr w os e' m' = Some (e2, m2) /\ next <= next' /\ (forall i, i < next -> e2 i = e' i) /\ (forall a, a < next -> m2 a = m' a)
    /\ forall (e3 : env) (m3 : memory), (forall i, i < next' -> e3 i = e2 i) -> (forall a, a < next' -> m3 a = m2 a) -> fetch e3 m3 v' = Some x' /\ read m3 x' = Some ar.
Proof.
  intros Fx Rx H Bn Ov. destruct (fetch_env _ _ _ _ Fx) as [Ex Fit]. destruct (s_env _ _ _ St _ _ Ex) as [Dv Lx]. pose proof (done_low _ _ _ E Dv) as Bv.
  assert (Keep : [] = os -> v = v' -> next = next' -> exists e2 m2 x', run tr w os e' m' = Some (e2, m2) /\ next <= next' /\ (forall i, i < next -> e2 i = e' i) /\ (forall a, a < next -> m2 a = m' a)
    /\ forall (e3 : env) (m3 : memory), (forall i, i < next' -> e3 i = e2 i) -> (forall a, a < next' -> m3 a = m2 a) -> fetch e3 m3 v' = Some x' /\ read m3 x' = Some ar).
  { intros <- <- <-. exists e', m', x. split; [reflexivity|]. split; [lia|]. split; [reflexivity|]. split; [reflexivity|]. intros e3 m3 H3 M3.
    assert (A3 : agree low m m3). { intros a La. rewrite M3 by (unfold low in La; lia). exact (proj2 Ov a La). }
    split; [|rewrite (read_agree low m m3 x A3 (s_closed _ _ _ St) Lx); exact Rx].
    unfold fetch. rewrite H3 by lia. rewrite (proj1 Ov _ _ Ex). cbn. rewrite (fits_kind m m3) by (intros a ->; rewrite (A3 a Lx); reflexivity). rewrite Fit. reflexivity. }
  unfold convert_operand in H. destruct v as [v tv]. cbn [fst snd] in *. destruct tv as [i|i|t|t| |i]; try (injection H as H1 H2 H3; exact (Keep H1 H2 H3)).
  - injection H as <- <- <-. cbn [fits] in Fit. destruct x as [c|a|y]; try discriminate. destruct (m a) as [[c|]|] eqn:Ma; try discriminate. cbn [read read1] in Rx. rewrite Ma in Rx. cbn in Rx. injection Rx as <-.
    assert (Ma' : m' a = Some (Tensor c)) by (rewrite (proj2 Ov a Lx); exact Ma).
    exists (upd e' next (Val c)), m', (Val c). split.
    { cbn [run]. unfold run_op. cbn [operands mapM]. rewrite (fetch_val e' m' v (NT i) (Ref a)); [|exact (proj1 Ov _ _ Ex)|cbn; rewrite Ma'; reflexivity]. cbn [obind exec tensor_at fst]. rewrite Ma'. reflexivity. }
    split; [lia|]. split; [intros k Bk; apply upd_neq; lia|]. split; [reflexivity|]. intros e3 m3 H3 M3. split; [|reflexivity]. apply fetch_val; [rewrite H3 by lia; apply upd_eq|reflexivity].
  - destruct (match t with NT _ | OptT _ => true | _ => false end) eqn:Ct; [|injection H as H1 H2 H3; exact (Keep H1 H2 H3)].
    destruct (defining l0 (v, ListT t)) as [o|] eqn:Df; [|discriminate]. destruct o as [| |r0 els| | | | | | | | | | | |]; try discriminate.
    destruct (defining_done _ _ (v, _) _ E Dv Df) as (Io & r & [<-|[]] & Er). cbn in Er.
    destruct els as [|el els0] eqn:Els; [injection H as H1 H2 H3; exact (Keep H1 H2 H3)|]. rewrite <- Els in *. clear Els el els0.
    destruct (match t with OptT _ => forallb (fun u => tensor_or_none (snd u)) els | _ => true end); [|discriminate]. cbn [guard obind] in H.
    destruct (copy_elements els next) as [[os0 vs] n1] eqn:Ce. cbn [with_value_semantics] in H. destruct (with_value_semantics t) as [t'|]; [|discriminate]. cbn [obind] in H. injection H as <- <- <-.
    destruct (s_list _ _ _ St _ _ Io) as (xs & Q1 & Q2 & Q3). rewrite Er in Q1, Q2. rewrite Q1 in Ex. injection Ex as <-.
    cbn [read] in Rx. rewrite Q2 in Rx. destruct (mapM (read1 m) xs) as [ds|] eqn:Rd; [|discriminate]. cbn in Rx. injection Rx as <-.
    destruct (copy_elements_ok els xs ds next os0 vs n1 e' m' Q3 Rd Ce Bn Ov) as (e2 & xs' & R1 & G & S1 & Lo & Rr & Fe).
    exists (upd e2 n1 (Ref n1)), (upd m' n1 (Items xs')), (Ref n1). split.
    { rewrite run_app, R1. cbn [obind run]. unfold run_op. cbn [operands]. rewrite (Fe e2 m' (fun _ _ => eq_refl) (proj2 Ov)). reflexivity. }
    split; [lia|]. split; [intros k Bk; rewrite upd_neq by lia; apply S1; exact Bk|]. split; [intros a Ba; apply upd_neq; lia|].
    intros e3 m3 H3 M3. assert (A3 : agree low m m3). { intros a La. rewrite M3 by (unfold low in La; lia). rewrite upd_neq by (unfold low in La; lia). exact (proj2 Ov a La). }
    split; [apply fetch_val; [rewrite H3 by lia; apply upd_eq|reflexivity]|]. cbn [read]. rewrite M3 by lia. rewrite upd_eq. rewrite (Rr m3 A3). reflexivity.
  - destruct t as [i|i|t|t| |i]; try (injection H as H1 H2 H3; exact (Keep H1 H2 H3)).
    destruct (defining l0 (v, OptT (NT i))) as [o|] eqn:Df; [|discriminate]. destruct o as [| | |r0 u| | | | | | | | | | |]; try discriminate.
    destruct (defining_done _ _ (v, _) _ E Dv Df) as (Io & r & [<-|[]] & Er). cbn in Er.
    destruct u as [u tu]. cbn [snd] in H. destruct tu as [j|j|t|t| |j]; try (injection H as H1 H2 H3; exact (Keep H1 H2 H3)). injection H as <- <- <-.
    destruct (s_deref _ _ _ St _ _ Io) as (x0 & Q1 & Q2 & Q3). rewrite Er, Ex in Q1. injection Q1 as <-. cbn [fst snd] in Q2, Q3.
    cbn [fits] in Q3. destruct x as [c|a|y]; try discriminate. destruct (m a) as [[c|]|] eqn:Ma; try discriminate. cbn [read read1] in Rx. rewrite Ma in Rx. cbn in Rx. injection Rx as <-.
    assert (Ma' : m' a = Some (Tensor c)) by (rewrite (proj2 Ov a Lx); exact Ma).
    exists (upd (upd e' next (Val c)) (S next) (Val c)), m', (Val c). split.
    { cbn [run]. unfold run_op at 1. cbn [operands mapM]. rewrite (fetch_val e' m' u (NT j) (Ref a)); [|exact (proj1 Ov _ _ Q2)|cbn; rewrite Ma'; reflexivity]. cbn [obind exec tensor_at fst]. rewrite Ma'. cbn [obind].
      unfold run_op. cbn [operands mapM]. rewrite (fetch_val _ m' next (VT j) (Val c)); [|apply upd_eq|reflexivity]. reflexivity. }
    split; [lia|]. split; [intros k Bk; rewrite !upd_neq by lia; reflexivity|]. split; [reflexivity|]. intros e3 m3 H3 M3. split; [|reflexivity]. apply fetch_val; [rewrite H3 by lia; apply upd_eq|reflexivity].
Qed.
Lemma convert_operands_ok : forall l xs ars next os l' next' e' m', mapM (fetch e m) l = Some xs -> mapM (read m) xs = Some ars -> convert_operands l0 l next = Some (os, l', next') -> B <= next -> over e' m' ->
  exists e2 m2 xs', run tr w os e' m' = Some (e2, m2) /\ next <= next' /\ (forall i, i < next -> e2 i = e' i) /\ (forall a, a < next -> m2 a = m' a)
    /\ forall (e3 : env) (m3 : memory), (forall i, i < next' -> e3 i = e2 i) -> (forall a, a < next' -> m3 a = m2 a) -> mapM (fetch e3 m3) l' = Some xs' /\ mapM (read m3) xs' = Some ars.
Proof.
  induction l as [|v l IH]; intros xs ars next os l' next' e' m' Fx Rx H Bn Ov; cbn [mapM convert_operands] in *.
  - injection H as <- <- <-. injection Fx as <-. injection Rx as <-. exists e', m', []. split; [reflexivity|]. split; [lia|]. split; [reflexivity|]. split; [reflexivity|]. intros. split; reflexivity.
  - destruct (fetch e m v) as [x|] eqn:F1; [|discriminate]. cbn [obind] in Fx. destruct (mapM (fetch e m) l) as [xs0|] eqn:F2; [|discriminate]. cbn in Fx. injection Fx as <-.
    cbn [mapM] in Rx. destruct (read m x) as [ar|] eqn:R1; [|discriminate]. cbn [obind] in Rx. destruct (mapM (read m) xs0) as [ars0|] eqn:R2; [|discriminate]. cbn in Rx. injection Rx as <-.
    destruct (convert_operand l0 v next) as [[[os1 v1] n1]|] eqn:C1; [|discriminate]. cbn [obind] in H. destruct (convert_operands l0 l n1) as [[[os2 vs2] n2]|] eqn:C2; [|discriminate]. cbn in H. injection H as <- <- <-.
    destruct (convert_operand_ok v x ar next os1 v1 n1 e' m' F1 R1 C1 Bn Ov) as (e1 & m1 & x' & Ra & G1 & S1 & M1 & K1).
    destruct (IH xs0 ars0 n1 os2 vs2 n2 e1 m1 eq_refl R2 C2 ltac:(lia) (over_low _ _ _ _ _ Bn Ov S1 M1)) as (e2 & m2 & xs' & Rb & G2 & S2 & M2 & K2).
    exists e2, m2, (x' :: xs'). split; [rewrite run_app, Ra; exact Rb|]. split; [lia|]. split; [intros i Bi; rewrite S2 by lia; apply S1; exact Bi|]. split; [intros a Ba; rewrite M2 by lia; apply M1; exact Ba|].
    intros e3 m3 H3 M3. destruct (K2 e3 m3 H3 M3) as [X1 X2]. destruct (K1 e3 m3) as [Y1 Y2]; [intros i Bi; rewrite H3 by lia; apply S2; lia|intros a Ba; rewrite M3 by lia; apply M2; lia|].
    cbn [mapM]. rewrite Y1. cbn [obind]. rewrite X1. cbn [obind mapM]. rewrite Y2. cbn [obind]. rewrite X2. split; reflexivity.
Qed.
End Operands.

(** ** Results *)
Definition in_memory (rs : list value) : list nat := map fst (filter (fun r => is_non_value (snd r)) rs).
Lemma in_memory_in rs i : In i (in_memory rs) -> In i (map fst rs).
Proof. unfold in_memory. intros H. apply in_map_iff in H. destruct H as (r & <- & H). apply filter_In in H. apply in_map. exact (proj1 H). Qed.
Lemma puts_other : forall rs ds (e : env) m e2 m2, puts rs ds e m = Some (e2, m2) -> (forall i, ~ In i (map fst rs) -> e2 i = e i) /\ (forall a, ~ In a (in_memory rs) -> m2 a = m a).
Proof.
  induction rs as [|r rs IH]; intros [|d ds] e m e2 m2 H; cbn [puts] in H; try discriminate; [injection H as <- <-; split; reflexivity|].
  destruct (put r d e m) as [[e1 m1]|] eqn:P1; [|discriminate]. cbn [obind] in H. destruct (IH _ _ _ _ _ H) as [X Y]. unfold in_memory in *. cbn [filter map]. split.
  - intros i N1. rewrite X by (intros I1; apply N1; right; exact I1). assert (i <> fst r) by (intros ->; apply N1; left; reflexivity).
    unfold put in P1. destruct d as [c|t], (snd r); try discriminate; injection P1 as <- _; apply upd_neq; assumption.
  - intros a N1. unfold put in P1. destruct d as [c|t], (snd r); cbn [is_non_value] in N1; try discriminate; injection P1 as _ <-; try (apply Y; exact N1).
    cbn [map] in N1. rewrite Y by (intros I1; apply N1; right; exact I1). apply upd_neq. intros ->. apply N1. left. reflexivity.
Qed.
Lemma convert_results_ok : forall rs ds next rs' os next' (e : env) m e2 m2 (e' : env) m', puts rs ds e m = Some (e2, m2) -> convert_results rs next = (rs', os, next') -> NoDup (map fst rs) -> (forall i, In i (map fst rs) -> i < next) ->
  next <= next' /\ exists e1, puts rs' ds e' m' = Some (e1, m') /\ (forall i, i < next -> ~ In i (map fst rs) -> e1 i = e' i) /\ (forall i, In i (map fst rs) -> ~ In i (in_memory rs) -> e1 i = e2 i)
    /\ forall (e3 : env) (m3 : memory), (forall i, next <= i < next' -> e3 i = e1 i) ->
       exists e4 m4, run tr w os e3 m3 = Some (e4, m4) /\ (forall i, In i (in_memory rs) -> e4 i = e2 i /\ m4 i = m2 i) /\ (forall i, ~ In i (in_memory rs) -> e4 i = e3 i /\ m4 i = m3 i).
Proof.
  induction rs as [|r rs IH]; intros [|d ds] next rs' os next' e m e2 m2 e' m' H Cr D Bd; cbn [puts convert_results] in *; try discriminate.
  - injection H as <- <-. injection Cr as <- <- <-. split; [lia|]. exists e'. split; [reflexivity|]. split; [reflexivity|]. split; [intros i []|]. intros e3 m3 _. exists e3, m3. split; [reflexivity|]. split; [intros i []|]. intros i _. split; reflexivity.
  - destruct (put r d e m) as [[ea ma]|] eqn:P1; [|discriminate]. cbn [obind] in H. cbn [map] in D. inversion D as [|? ? Dr D']; subst.
    assert (Br : fst r < next) by (apply Bd; left; reflexivity).
    assert (Bd' : forall i, In i (map fst rs) -> i < next) by (intros i I1; apply Bd; right; exact I1).
    destruct (puts_other _ _ _ _ _ _ H) as [Oe Om].
    destruct (is_non_value (snd r)) eqn:Nv.
    + destruct (snd r) as [i| | | | |] eqn:Tr; try discriminate. destruct (convert_results rs (S next)) as [[rs0 os0] n0] eqn:C0. injection Cr as <- <- <-.
      unfold put in P1. rewrite Tr in P1. destruct d as [c|t]; [|discriminate]. injection P1 as <- <-.
      destruct (IH ds (S next) rs0 os0 n0 _ _ e2 m2 (upd e' next (Val c)) m' H C0 D' ltac:(intros z Iz; specialize (Bd' z Iz); lia)) as (G & e1 & Pu & X1 & X2 & X3).
      split; [lia|]. exists e1. split; [cbn [puts]; unfold put; cbn [snd fst obind]; exact Pu|].
      assert (Im : in_memory (r :: rs) = fst r :: in_memory rs) by (unfold in_memory; cbn [filter]; rewrite Tr; reflexivity).
      split.
      { intros z Bz Nz. rewrite X1; [apply upd_neq; lia|lia|]. intros Iz. apply Nz. right. exact Iz. }
      split. { rewrite Im. intros z [<-|Iz] Nz; [exfalso; apply Nz; left; reflexivity|]. apply X2; [exact Iz|]. intros Z. apply Nz. right. exact Z. }
      intros e3 m3 H3.
      destruct (X3 (upd e3 (fst r) (Ref (fst r))) (upd m3 (fst r) (Tensor c))) as (e4 & m4 & R4 & Y1 & Y2). { intros z Bz. rewrite upd_neq by lia. apply H3. lia. }
      exists e4, m4. split.
      { cbn [run]. unfold run_op. cbn [operands mapM]. rewrite (fetch_val e3 m3 next (VT i) (Val c)); [|rewrite H3 by lia; rewrite X1; [apply upd_eq|lia|intros Z; specialize (Bd' _ Z); lia]|reflexivity]. cbn [obind exec]. exact R4. }
      rewrite Im. split.
      * intros z [<-|Iz]; [|exact (Y1 z Iz)]. assert (Nr : ~ In (fst r) (in_memory rs)) by (intros Z; apply Dr; apply in_memory_in; exact Z).
        destruct (Y2 _ Nr) as [-> ->]. rewrite !upd_eq. rewrite (Oe _ Dr), (Om _ Nr). rewrite !upd_eq. split; reflexivity.
      * intros z Nz. assert (z <> fst r) by (intros ->; apply Nz; left; reflexivity). destruct (Y2 z (fun Z => Nz (or_intror Z))) as [-> ->]. rewrite !upd_neq by assumption. split; reflexivity.
    + assert (Cr' : exists rs0, convert_results rs next = (rs0, os, next') /\ rs' = r :: rs0).
      { destruct (snd r); try discriminate; destruct (convert_results rs next) as [[rs0 os0] n0]; injection Cr as <- <- <-; exists rs0; split; reflexivity. }
      destruct Cr' as (rs0 & C0 & ->).
      assert (P2 : exists x, ea = upd e (fst r) x /\ ma = m /\ put r d e' m' = Some (upd e' (fst r) x, m')).
      { unfold put in *. destruct d as [c|t], (snd r); try discriminate; injection P1 as <- <-; eexists; repeat split; reflexivity. }
      destruct P2 as (x & -> & -> & P2).
      destruct (IH ds next rs0 os next' _ _ e2 m2 (upd e' (fst r) x) m' H C0 D' Bd') as (G & e1 & Pu & X1 & X2 & X3).
      split; [exact G|]. exists e1. split; [cbn [puts]; rewrite P2; exact Pu|].
      assert (Im : in_memory (r :: rs) = in_memory rs) by (unfold in_memory; cbn [filter]; rewrite Nv; reflexivity). rewrite Im.
      split. { intros z Bz Nz. rewrite X1; [apply upd_neq; intros ->; apply Nz; left; reflexivity|exact Bz|]. intros Iz. apply Nz. right. exact Iz. }
      split; [|exact X3]. intros z [<-|Iz] Nz; [|exact (X2 z Iz Nz)]. rewrite (X1 _ Br Dr), upd_eq. rewrite (Oe _ Dr), upd_eq. reflexivity.
Qed.

(** ** Operations *)
Lemma convert_op_ok pre post o build f rs args next os next' e m e2 m2 e' m' : l0 = pre ++ o :: post -> state pre e m -> o = build rs args ->
  (forall rs args, results (build rs args) = rs /\ operands (build rs args) = args /\ forall (xs : list rt) e m, exec tr w (build rs args) xs e m = do ars <- mapM (read m) xs; do ds <- f ars; puts rs ds e m) ->
  convert_op l0 build rs args next = Some (os, next') -> B <= next -> over e m e' m' -> run_op tr w o e m = Some (e2, m2) ->
  next <= next' /\ exists e2' m2', run tr w os e' m' = Some (e2', m2') /\ over e2 m2 e2' m2'.
Proof.
  intros E St Eo Hb H Bn Ov Ro. subst o. destruct (Hb rs args) as (Hr & Ho & Hx).
  assert (K : Forall low (map fst (results (build rs args)))) by (apply Forall_forall; intros i I1; exact (proj1 (fresh _ _ _ _ E I1))).
  unfold convert_op in H. destruct (legal rs args).
  - injection H as <- <-. split; [lia|].
    destruct (run_op_rel tr w low [] (build rs args) e m e2 m2 e' m' K (proj2 Ov) (s_closed _ _ _ St)) as (e2' & m2' & R' & (A & _ & Dn & Nn & _)); [|exact Ro|].
    { intros v y _ Hy. split; [exact (proj1 Ov _ _ Hy)|exact (proj2 (s_env _ _ _ St _ _ Hy))]. }
    exists e2', m2'. assert (Rn : rename_op [] (build rs args) = build rs args).
    { destruct (build rs args); cbn [rename_op]; rewrite ?(map_ext _ (fun x => x) rename_nil), ?map_id; reflexivity. }
    rewrite Rn in R'. cbn [run]. rewrite R'. split; [reflexivity|]. split; [|exact A]. intros i x Hi. destruct (in_dec Nat.eq_dec i (map fst (results (build rs args)))) as [I1|I1].
    + destruct (Dn i I1) as [-> _]. exact Hi.
    + destruct (Nn i I1) as [Z ->]. rewrite Z in Hi. exact (proj1 Ov _ _ Hi).
  - destruct (convert_operands l0 args next) as [[[before args'] n1]|] eqn:Ca; [|discriminate]. cbn [obind] in H. destruct (convert_results rs n1) as [[rs' af] n2] eqn:Cr. injection H as <- <-.
    assert (ND := results_nodup l0 start B W _ _ _ E). rewrite Hr in *.
    unfold run_op in Ro. rewrite Ho in Ro. destruct (mapM (fetch e m) args) as [xs|] eqn:Q; [|discriminate]. cbn [obind] in Ro. rewrite Hx in Ro.
    destruct (mapM (read m) xs) as [ars|] eqn:Qr; [|discriminate]. cbn [obind] in Ro. destruct (f ars) as [ds|] eqn:Qf; [|discriminate]. cbn [obind] in Ro.
    destruct (convert_operands_ok pre _ E e m St args xs ars next before args' n1 e' m' Q Qr Ca Bn Ov) as (ea & ma & xs' & Ra & G1 & S1 & M1 & K1).
    assert (Bd : forall i, In i (map fst rs) -> i < n1) by (intros i I1; pose proof (proj1 (Forall_forall _ _) K _ I1) as Z; unfold low in Z; lia).
    destruct (convert_results_ok rs ds n1 rs' af n2 e m e2 m2 ea ma Ro Cr ND Bd) as (G2 & eb & Pu & X1 & X2 & X3).
    destruct (X3 eb ma (fun _ _ => eq_refl)) as (ec & mc & Rc & Y1 & Y2).
    destruct (puts_other _ _ _ _ _ _ Ro) as [Oe Om].
    split; [lia|]. exists ec, mc. split.
    + rewrite run_app, Ra. cbn [obind run]. destruct (Hb rs' args') as (_ & Ho' & Hx'). unfold run_op at 1. rewrite Ho'. destruct (K1 ea ma (fun _ _ => eq_refl) (fun _ _ => eq_refl)) as [Z1 Z2]. rewrite Z1. cbn [obind]. rewrite Hx', Z2. cbn [obind]. rewrite Qf. cbn [obind]. rewrite Pu. cbn [obind]. exact Rc.
    + destruct (over_low pre _ E e m St e' m' ea ma next Bn Ov S1 M1) as [Ov1 Ov2]. split.
      * intros i x Hi. destruct (in_dec Nat.eq_dec i (in_memory rs)) as [I1|I1]; [rewrite (proj1 (Y1 i I1)); exact Hi|]. rewrite (proj1 (Y2 i I1)).
        destruct (in_dec Nat.eq_dec i (map fst rs)) as [I2|I2]; [rewrite (X2 i I2 I1); exact Hi|].
        rewrite (Oe i I2) in Hi. pose proof (done_low _ _ _ E (proj1 (s_env _ _ _ St _ _ Hi))). rewrite (X1 i); [exact (Ov1 _ _ Hi)|lia|exact I2].
      * intros a La. destruct (in_dec Nat.eq_dec a (in_memory rs)) as [I1|I1]; [rewrite (proj2 (Y1 a I1)); reflexivity|]. rewrite (proj2 (Y2 a I1)), (Om a I1). exact (Ov2 a La).
Qed.
Lemma convert_step pre o post next os next' e m e2 m2 e' m' : l0 = pre ++ o :: post -> state pre e m -> convert tr l0 o next = Some (os, next') -> B <= next -> over e m e' m' -> run_op tr w o e m = Some (e2, m2) ->
  next <= next' /\ exists e2' m2', run tr w os e' m' = Some (e2', m2') /\ over e2 m2 e2' m2'.
Proof.
  intros E St H Bn Ov Ro.
  assert (Keep : [o] = os -> next = next' -> next <= next' /\ exists e2' m2', run tr w os e' m' = Some (e2', m2') /\ over e2 m2 e2' m2').
  { intros <- <-. split; [lia|]. assert (K : Forall low (map fst (results o))) by (apply Forall_forall; intros i I1; exact (proj1 (fresh _ _ _ _ E I1))).
    destruct (run_op_rel tr w low [] o e m e2 m2 e' m' K (proj2 Ov) (s_closed _ _ _ St)) as (e2' & m2' & R' & (A & _ & Dn & Nn & _)); [|exact Ro|].
    { intros v y _ Hy. split; [exact (proj1 Ov _ _ Hy)|exact (proj2 (s_env _ _ _ St _ _ Hy))]. }
    exists e2', m2'. assert (Rn : rename_op [] o = o). { destruct o; cbn [rename_op]; rewrite ?(map_ext _ (fun x => x) rename_nil), ?map_id; reflexivity. }
    rewrite Rn in R'. cbn [run]. rewrite R'. split; [reflexivity|]. split; [|exact A]. intros i x Hi. destruct (in_dec Nat.eq_dec i (map fst (results o))) as [I1|I1].
    + destruct (Dn i I1) as [-> _]. exact Hi.
    + destruct (Nn i I1) as [Z ->]. rewrite Z in Hi. exact (proj1 Ov _ _ Hi). }
  unfold convert in H. destruct o as [name rs args|name rs args|r l|r v|r v|r v|r v|v t|r k i|r k|r b|r|r v|r v d|r args]; try (injection H as H1 H2; exact (Keep H1 H2)).
  - destruct (value_semantics tr name) eqn:V; [|injection H as H1 H2; exact (Keep H1 H2)].
    apply (convert_op_ok pre post (Aten name rs args) (Aten name) (computes w name) rs args next os next' e m e2 m2 e' m'); try assumption; try reflexivity.
    intros rs0 args0. split; [reflexivity|]. split; [reflexivity|]. intros xs e0 m0. cbn [exec]. rewrite V. reflexivity.
  - destruct (in_library tr name) eqn:V; [|injection H as H1 H2; exact (Keep H1 H2)].
    apply (convert_op_ok pre post (Operator name rs args) (Operator name) (operators w name) rs args next os next' e m e2 m2 e' m'); try assumption; try reflexivity.
    intros rs0 args0. split; [reflexivity|]. split; [reflexivity|]. intros xs e0 m0. reflexivity.
Qed.
Lemma convert_all_run : forall l pre next l2 next' e m e2 m2 e' m', l0 = pre ++ l -> state pre e m -> convert_all tr l0 l next = Some (l2, next') -> B <= next -> over e m e' m' -> run tr w l e m = Some (e2, m2) ->
  exists e2' m2', run tr w l2 e' m' = Some (e2', m2') /\ over e2 m2 e2' m2'.
Proof.
  induction l as [|o l IH]; intros pre next l2 next' e m e2 m2 e' m' E St H Bn Ov Ro; cbn [convert_all run] in *.
  - injection H as <- <-. injection Ro as <- <-. exists e', m'. split; [reflexivity|exact Ov].
  - destruct (convert tr l0 o next) as [[os n1]|] eqn:C1; [|discriminate]. cbn [obind] in H. destruct (convert_all tr l0 l n1) as [[rest n2]|] eqn:C2; [|discriminate]. cbn in H. injection H as <- <-.
    destruct (run_op tr w o e m) as [[ea ma]|] eqn:Ra; [|discriminate]. cbn [obind] in Ro.
    destruct (convert_step pre o l next os n1 e m ea ma e' m' E St C1 Bn Ov Ra) as (G & ea' & ma' & Ra' & Ov').
    destruct (IH (pre ++ [o]) n1 rest n2 ea ma e2 m2 ea' ma' ltac:(rewrite <- app_assoc; exact E) (state_step _ _ _ _ _ _ _ E St Ra) C2 ltac:(lia) Ov' Ro) as (e2' & m2' & Rb & Ov2).
    exists e2', m2'. rewrite run_app, Ra'. cbn [obind]. split; [exact Rb|exact Ov2].
Qed.
End Convert.
