(** C98: folding operations on lists, tuples and dictionaries. *)
From Coq Require Import ZArith Lia List Bool.
From Verif Require Import Prelude FoldModel FoldListModel.
Import ListNotations.
Open Scope Z_scope.

(** Operands are defined before they are used. *)
Definition ssa (p : program) : Prop := forall n o v, nth_error p n = Some o -> In v (operands o) -> (v < n)%nat.
(** Some operation changes the list through this very value. *)
Definition changed (p : program) (v : nat) : Prop :=
  exists o, In o p /\ In v (operands o) /\ ((exists l x, o = Append l x) \/ (exists l i x, o = SetItem l i x)).
(** No other value or list can hold this list. *)
Definition unshared (p : program) (v : nat) : Prop :=
  forall o, In o p -> In v (operands o) -> (forall w, o <> Alias w) /\ (forall ws, o <> ListConstruct ws).

Lemma uses_spec : forall v o, uses v o = true <-> In v (operands o).
Proof.
  intros v o. unfold uses. rewrite existsb_exists. split.
  - intros (x & Hx & E). apply Nat.eqb_eq in E. now subst.
  - intros H. exists v. split; auto. apply Nat.eqb_refl.
Qed.
Lemma mutates_spec : forall o, mutates o = true <-> (exists l x, o = Append l x) \/ (exists l i x, o = SetItem l i x).
Proof.
  intros o. split.
  - destruct o; cbn; intros; try discriminate; eauto 6.
  - intros [(l & x & ->)|(l & i & x & ->)]; reflexivity.
Qed.
Lemma mutated_spec : forall p v, potentially_mutated p v = true <-> changed p v.
Proof.
  intros p v. unfold potentially_mutated, changed. rewrite existsb_exists. split.
  - intros (o & Ho & E). apply andb_prop in E as [U M]. apply uses_spec in U. apply mutates_spec in M. eauto.
  - intros (o & Ho & U & M). exists o. split; auto. apply uses_spec in U. apply mutates_spec in M. now rewrite U, M.
Qed.
Lemma stable_spec : forall p v vs, stable p v = Some vs <-> nth_error p v = Some (ListConstruct vs) /\ ~ changed p v.
Proof.
  intros p v vs. unfold stable, construct. rewrite <- mutated_spec. destruct (potentially_mutated p v).
  - split; [discriminate|]. intros [_ H]. now destruct H.
  - destruct (nth_error p v) as [[]|]; split; intros H; try discriminate; try (now destruct H as [H _]).
    + injection H as <-. split; [auto|discriminate].
    + destruct H as [[= <-] _]. reflexivity.
Qed.

(** * What one operation does *)
Definition in_heap (s : state) (x : value) : Prop := exists b d, nth_error (mem s) b = Some d /\ In x d.
Lemma list_of_some : forall s v a c, list_of s v = Some (a, c) <-> nth_error (env s) v = Some (VList a) /\ nth_error (mem s) a = Some c.
Proof.
  intros s v a c. unfold list_of. destruct (nth_error (env s) v) as [[]|]; cbn [obind]; try (split; [discriminate|intros [? ?]; discriminate]).
  destruct (nth_error (mem s) addr) as [d|] eqn:E; cbn [obind]; split.
  - intros [= <- <-]. auto.
  - intros [[= <-] H]. rewrite E in H. congruence.
  - discriminate.
  - intros [[= <-] H]. congruence.
Qed.
Lemma int_of_some : forall s v z, int_of s v = Some z <-> nth_error (env s) v = Some (VInt z).
Proof. intros s v z. unfold int_of. destruct (nth_error (env s) v) as [[]|]; cbn; split; intros; congruence. Qed.
Lemma mapM_in : forall A B (f : A -> option B) l r y, mapM f l = Some r -> In y r -> exists x, In x l /\ f x = Some y.
Proof.
  intros A B f l r y H. apply mapM_Forall2 in H. induction H; [intros []|]. intros [<-|Hy]; [eexists; split; [now left|auto]|].
  destruct (IHForall2 Hy) as (x' & ? & ?). exists x'. split; [now right|auto].
Qed.
Lemma in_concat_repeat : forall A (c : list A) n y, In y (concat (repeat c n)) -> In y c.
Proof. intros A c n y. induction n; cbn; [intros []|]. rewrite in_app_iff. tauto. Qed.

Inductive effect (s : state) (o : listop) (x : value) (m : heap) : Prop :=
  | Returns : m = mem s -> (forall a, x = VList a -> (exists w, o = Alias w /\ nth_error (env s) w = Some x) \/ in_heap s x) -> effect s o x m
  | Allocates : forall c, m = mem s ++ [c] -> x = VList (length (mem s)) ->
      (forall y, In y c -> (exists ws w, o = ListConstruct ws /\ In w ws /\ nth_error (env s) w = Some y) \/ in_heap s y) -> effect s o x m
  | Changes : forall l b d c, mutates o = true -> In l (operands o) -> nth_error (env s) l = Some (VList b) -> nth_error (mem s) b = Some d ->
      m = set_cell (mem s) b c -> x = VList b -> (forall y, In y c -> In y d \/ exists w, In w (operands o) /\ nth_error (env s) w = Some y) -> effect s o x m.
Ltac take H := match type of H with
  | obind ?e ?k = Some _ => let E := fresh "E" in destruct e eqn:E; cbn [obind] in H; [|discriminate]
  end.
Lemma step_effect : forall s o s', step_op s o = Some s' -> exists x, env s' = env s ++ [x] /\ effect s o x (mem s').
Proof.
  intros s o s' H. unfold result, fresh in *. destruct o; cbn [step_op] in H; unfold result, fresh in H; repeat (take H);
    repeat match goal with q : (nat * list value)%type |- _ => let a := fresh "a" in let c := fresh "c" in destruct q as [a c]; cbn [fst snd] in * end;
    repeat match goal with E : list_of _ _ = Some _ |- _ => apply list_of_some in E; destruct E end;
    repeat match goal with E : int_of _ _ = Some _ |- _ => apply int_of_some in E end.
  all: try (injection H as <-; eexists; split; [reflexivity|]; apply Returns; [reflexivity|discriminate]).
  - injection H as <-. eexists. split; [reflexivity|]. eapply Allocates; [reflexivity|reflexivity|].
    intros y Hy. left. match goal with M : mapM _ _ = Some _ |- _ => destruct (mapM_in _ _ _ _ _ _ M Hy) as (w & Hw & Ew) end. eauto 6.
  - injection H as <-. eexists. split; [reflexivity|]. apply Returns; [reflexivity|]. intros a ->. left. eauto.
  - injection H as <-. eexists. split; [reflexivity|]. apply Returns; [reflexivity|]. intros a' ->. right. do 2 eexists. split; eauto.
    eapply nth_error_In; eauto.
  - injection H as <-. eexists. split; [reflexivity|]. eapply Changes; [reflexivity|left; reflexivity|eauto|eauto|reflexivity|reflexivity|].
    intros y Hy. apply in_app_iff in Hy as [Hy|[<-|[]]]; auto. right. exists v. split; auto. cbn. auto.
  - injection H as <-. eexists. split; [reflexivity|]. eapply Changes; [reflexivity|left; reflexivity|eauto|eauto|reflexivity|reflexivity|].
    intros y Hy. apply in_app_iff in Hy as [Hy|[<-|Hy]].
    + left. rewrite <- (firstn_skipn n c). apply in_app_iff. auto.
    + right. exists v. split; auto. cbn. auto.
    + left. assert (Q := firstn_skipn (S n) c). rewrite <- Q. apply in_app_iff. right. exact Hy.
  - injection H as <-. eexists. split; [reflexivity|]. eapply Allocates; [reflexivity|reflexivity|].
    intros y Hy. right. apply in_app_iff in Hy as [Hy|Hy]; do 2 eexists; (split; [|exact Hy]); eauto.
  - injection H as <-. eexists. split; [reflexivity|]. eapply Allocates; [reflexivity|reflexivity|].
    intros y Hy. right. apply in_concat_repeat in Hy. do 2 eexists; split; eauto.
  - destruct (z1 <=? 0); [discriminate|]. take H. injection H as <-. eexists. split; [reflexivity|]. eapply Allocates; [reflexivity|reflexivity|].
    intros y Hy. right. match goal with M : mapM _ _ = Some _ |- _ => destruct (mapM_in _ _ _ _ _ _ M Hy) as (w & Hw & Ew) end. do 2 eexists; split; eauto. eapply nth_error_In; eauto.
  - destruct l0; [discriminate|]. injection H as <-. eexists; split; [reflexivity|]; apply Returns; [reflexivity|discriminate].
Qed.

(** * Addresses *)
Definition bounded (s : state) : Prop := forall a, In (VList a) (env s) \/ in_heap s (VList a) -> (a < length (mem s))%nat.
Lemma set_cell_length : forall h b d c, nth_error h b = Some d -> length (set_cell h b c) = length h.
Proof.
  intros h b d c H. unfold set_cell. assert (L : (b < length h)%nat) by (apply nth_error_Some; congruence).
  rewrite app_length. cbn [length]. rewrite firstn_length, skipn_length. lia.
Qed.
Lemma set_cell_nth : forall h b d c k, nth_error h b = Some d -> nth_error (set_cell h b c) k = if Nat.eqb k b then Some c else nth_error h k.
Proof.
  intros h b d c k H. unfold set_cell. assert (L : (b < length h)%nat) by (apply nth_error_Some; congruence).
  destruct (Nat.eqb_spec k b) as [->|N].
  - rewrite nth_error_app2; rewrite firstn_length, Nat.min_l by lia; [|lia]. now rewrite Nat.sub_diag.
  - destruct (Nat.lt_ge_cases k b) as [K|K].
    + rewrite nth_error_app1 by (rewrite firstn_length; lia). rewrite <- (firstn_skipn b h) at 2. rewrite nth_error_app1 by (rewrite firstn_length; lia). reflexivity.
    + rewrite nth_error_app2; rewrite firstn_length, Nat.min_l by lia; [|lia]. destruct (k - b)%nat as [|j] eqn:J; [lia|]. cbn [nth_error].
      rewrite <- (firstn_skipn (S b) h) at 2. rewrite nth_error_app2 by (rewrite firstn_length; lia). f_equal. rewrite firstn_length. lia.
Qed.
Lemma nth_snoc : forall A (l : list A) x w y, nth_error (l ++ [x]) w = Some y -> nth_error l w = Some y \/ w = length l /\ y = x.
Proof.
  intros A l x w y H. destruct (Nat.lt_ge_cases w (length l)) as [L|L]; [rewrite nth_error_app1 in H; auto|]. rewrite nth_error_app2 in H by auto.
  destruct (w - length l)%nat as [|k] eqn:K; cbn in H; [|destruct k; discriminate]. injection H as <-. right. split; auto. lia.
Qed.
Lemma in_heap_snoc : forall s c x m, m = mem s ++ [c] -> (exists b d, nth_error m b = Some d /\ In x d) -> in_heap s x \/ In x c.
Proof.
  intros s c x m -> (b & d & H & I). apply nth_snoc in H as [H|[_ ->]]; [left; exists b, d; auto|auto].
Qed.
Lemma step_bounded : forall s o s', bounded s -> step_op s o = Some s' -> bounded s'.
Proof.
  intros s o s' B H. apply step_effect in H as (x & E & F). unfold bounded. intros a Ha. unfold in_heap in Ha. rewrite E in Ha.
  assert (Old : forall y, (exists w, nth_error (env s) w = Some y) \/ in_heap s y -> y = VList a -> (a < length (mem s))%nat).
  { intros y [[w Hw]|Hy] ->; apply B; [left; eapply nth_error_In; eauto|auto]. }
  destruct F as [M R|c M R C|l b d c Mu Hl El Ed M R C].
  - rewrite M in *. destruct Ha as [Ha|Ha].
    + apply in_app_iff in Ha as [Ha|[Ha|[]]]; [apply B; auto|]. destruct (R a Ha) as [(w & _ & Hw)|Hx]; eapply Old; eauto.
    + apply B. auto.
  - rewrite M, app_length. cbn [length]. destruct Ha as [Ha|Ha].
    + apply in_app_iff in Ha as [Ha|[Ha|[]]]; [assert (a < length (mem s))%nat by (apply B; auto); lia|]. rewrite R in Ha. injection Ha as <-. lia.
    + apply (in_heap_snoc s c (VList a) _ M) in Ha as [Ha|Ha]; [assert (a < length (mem s))%nat by (apply B; auto); lia|].
      assert (a < length (mem s))%nat; [|lia]. destruct (C _ Ha) as [(ws & w & _ & _ & Hw)|Hx]; eapply Old; eauto.
  - rewrite M, (set_cell_length _ _ d) by auto. destruct Ha as [Ha|(k & e & Hk & I)].
    + apply in_app_iff in Ha as [Ha|[Ha|[]]]; [apply B; auto|]. rewrite R in Ha. injection Ha as <-. apply nth_error_Some. congruence.
    + rewrite M, (set_cell_nth _ _ d) in Hk by auto. destruct (Nat.eqb k b).
      * injection Hk as <-. destruct (C _ I) as [I'|(w & _ & Hw)]; [apply B; right; exists b, d; auto|eapply Old; eauto].
      * apply B. right. exists k, e. auto.
Qed.

(** * A list only one value holds *)
Definition alone (v a : nat) (c : list value) (s : state) : Prop :=
  nth_error (env s) v = Some (VList a) /\ nth_error (mem s) a = Some c /\ (forall w, nth_error (env s) w = Some (VList a) -> w = v) /\ ~ in_heap s (VList a).
Lemma step_alone : forall p v a c s o s', In o p -> ~ changed p v -> unshared p v -> bounded s -> alone v a c s -> step_op s o = Some s' -> alone v a c s'.
Proof.
  intros p v a c s o s' Ho Nc Us B (A1 & A2 & A3 & A4) H. apply step_effect in H as (x & E & F).
  assert (La : (a < length (mem s))%nat) by (apply nth_error_Some; congruence).
  assert (Ev : nth_error (env s') v = Some (VList a)).
  { rewrite E. rewrite nth_error_app1; auto. apply nth_error_Some. congruence. }
  assert (G : x <> VList a -> forall w, nth_error (env s') w = Some (VList a) -> w = v).
  { intros Nx w Hw. rewrite E in Hw. apply nth_snoc in Hw as [Hw|[_ Hw]]; auto. congruence. }
  destruct F as [M R|c' M R C|l b d c' Mu Hl El Ed M R C].
  - assert (Nx : x <> VList a).
    { intros Ex. destruct (R a Ex) as [(w & Eo & Hw)|Hx]; [|subst x; contradiction].
      assert (w = v) by (apply A3; congruence). subst w. apply (proj1 (Us o Ho ltac:(rewrite Eo; now left)) v). exact Eo. }
    split; [auto|]. split; [now rewrite M|]. split; [auto|]. intros (k & e & Hk & I). rewrite M in Hk. apply A4. exists k, e. auto.
  - assert (Nx : x <> VList a) by (rewrite R; intros [= Q]; lia).
    split; [auto|]. split; [rewrite M, nth_error_app1; auto|]. split; [auto|]. intros Hh.
    apply (in_heap_snoc s c' (VList a) _ M) in Hh as [Hh|Hh]; [contradiction|].
    destruct (C _ Hh) as [(ws & w & Eo & Iw & Hw)|Hx]; [|contradiction].
    assert (w = v) by (apply A3; congruence). subst w. apply (proj2 (Us o Ho ltac:(rewrite Eo; exact Iw)) ws). exact Eo.
  - assert (No : ~ In v (operands o)). { intros I. apply Nc. exists o. split; auto. split; auto. now apply mutates_spec. }
    assert (Nb : b <> a). { intros ->. apply A3 in El. subst l. contradiction. }
    assert (Nx : x <> VList a) by congruence.
    split; [auto|]. split; [rewrite M, (set_cell_nth _ _ d) by auto; destruct (Nat.eqb_spec a b); congruence|]. split; [auto|].
    intros (k & e & Hk & I). rewrite M, (set_cell_nth _ _ d) in Hk by auto. destruct (Nat.eqb k b).
    + injection Hk as <-. destruct (C _ I) as [I'|(w & Iw & Hw)]; [apply A4; exists b, d; auto|]. apply A3 in Hw. subst w. contradiction.
    + apply A4. exists k, e. auto.
Qed.

(** * Executions *)
Lemma foldM_snoc : forall A B (f : A -> B -> option A) l x a, foldM f (l ++ [x]) a = (do b <- foldM f l a; f b x).
Proof. intros A B f l x. induction l as [|y l IH]; intros a; cbn; [now destruct (f a x)|]. destruct (f a y); cbn; auto. Qed.
Lemma before_S : forall p n o, nth_error p n = Some o -> before p (S n) = do s <- before p n; step_op s o.
Proof.
  intros p n o H. unfold before, run. rewrite <- foldM_snoc. f_equal. revert p H. induction n as [|n IH]; intros [|q p] H; cbn [nth_error] in H; try discriminate.
  - injection H as ->. reflexivity.
  - change (q :: firstn (S n) p = q :: (firstn n p ++ [o])). f_equal. auto.
Qed.
Lemma before_none_end : forall p n, nth_error p n = None -> before p (S n) = before p n.
Proof. intros p n H. apply nth_error_None in H. unfold before. rewrite !firstn_all2; auto; lia. Qed.
Lemma run_ind : forall p (P : nat -> state -> Prop), P 0%nat {| mem := []; env := [] |} ->
  (forall n o s s', nth_error p n = Some o -> before p n = Some s -> P n s -> step_op s o = Some s' -> P (S n) s') ->
  forall n s, (n <= length p)%nat -> before p n = Some s -> P n s.
Proof.
  intros p P P0 PS. induction n as [|n IH]; intros s L H.
  - unfold before, run in H. cbn in H. injection H as <-. auto.
  - destruct (nth_error p n) as [o|] eqn:E; [|apply nth_error_None in E; lia]. rewrite (before_S _ _ _ E) in H.
    destruct (before p n) as [s0|] eqn:E0; [|discriminate]. cbn in H. apply (PS n o s0 s E E0); auto. apply IH; auto. lia.
Qed.
Lemma before_env : forall p n s, (n <= length p)%nat -> before p n = Some s -> length (env s) = n /\ bounded s.
Proof.
  intros p n s L H. apply (run_ind p (fun n s => length (env s) = n /\ bounded s)) with (n := n) (s := s) in H; auto.
  - split; auto. intros a [[]|(b & d & Hb & _)]. cbn in Hb. destruct b; discriminate.
  - intros k o s0 s1 E E0 [L0 B0] St. split; [|eapply step_bounded; eauto]. apply step_effect in St as (x & -> & _). rewrite app_length. cbn. lia.
Qed.
(** Values do not change once they are defined. *)
Lemma env_grows : forall p n m s s', (n <= m)%nat -> (m <= length p)%nat -> before p n = Some s -> before p m = Some s' ->
  exists t, env s' = env s ++ t.
Proof.
  intros p n m s s' Nm L H. revert s' . induction Nm as [|m Nm IH]; intros s' H'.
  - assert (s' = s) by congruence. subst. exists []. now rewrite app_nil_r.
  - destruct (nth_error p m) as [o|] eqn:E; [|apply nth_error_None in E; lia]. rewrite (before_S _ _ _ E) in H'.
    destruct (before p m) as [s0|] eqn:E0; [|discriminate]. cbn in H'. destruct (IH ltac:(lia) s0 eq_refl) as [t Et].
    apply step_effect in H' as (x & -> & _). rewrite Et. exists (t ++ [x]). now rewrite app_assoc.
Qed.
Lemma env_at : forall p v n s, (v < n)%nat -> (n <= length p)%nat -> before p n = Some s ->
  exists o s0 s1, nth_error p v = Some o /\ before p v = Some s0 /\ step_op s0 o = Some s1 /\ before p (S v) = Some s1 /\ exists t, env s = env s1 ++ t.
Proof.
  intros p v n s Vn L H. destruct (nth_error p v) as [o|] eqn:E; [|apply nth_error_None in E; lia].
  assert (D : exists s1, before p (S v) = Some s1).
  { clear E. revert s H L. induction Vn as [|n Vn IH]; intros s H L; [eauto|]. destruct (nth_error p n) as [o'|] eqn:E; [|apply nth_error_None in E; lia].
    rewrite (before_S _ _ _ E) in H. destruct (before p n) as [s0|] eqn:E0; [|discriminate]. eapply IH; eauto. lia. }
  destruct D as [s1 D]. assert (G := env_grows p (S v) n s1 s Vn L D H). rewrite (before_S _ _ _ E) in D.
  destruct (before p v) as [s0|] eqn:E0; [|discriminate]. cbn in D. exists o, s0, s1. rewrite (before_S _ _ _ E), E0. auto.
Qed.
Lemma nth_grow : forall A (l t : list A) w x, nth_error l w = Some x -> nth_error (l ++ t) w = Some x.
Proof. intros A l t w x H. rewrite nth_error_app1; auto. apply nth_error_Some. congruence. Qed.
Lemma const_value : forall p v n s z, (v < n)%nat -> (n <= length p)%nat -> before p n = Some s -> nth_error p v = Some (Const z) ->
  nth_error (env s) v = Some (VInt z).
Proof.
  intros p v n s z Vn L H E. destruct (env_at p v n s Vn L H) as (o & s0 & s1 & Eo & E0 & St & _ & t & Et). rewrite E in Eo. injection Eo as <-.
  cbn in St. injection St as <-. rewrite Et. apply nth_grow. cbn [env]. destruct (before_env p v s0 ltac:(lia) E0) as [<- _].
  rewrite nth_error_app2, Nat.sub_diag by lia. reflexivity.
Qed.
Lemma const_bool_value : forall p v n s b, (v < n)%nat -> (n <= length p)%nat -> before p n = Some s -> nth_error p v = Some (ConstBool b) ->
  nth_error (env s) v = Some (VBool b).
Proof.
  intros p v n s b Vn L H E. destruct (env_at p v n s Vn L H) as (o & s0 & s1 & Eo & E0 & St & _ & t & Et). rewrite E in Eo. injection Eo as <-.
  cbn in St. injection St as <-. rewrite Et. apply nth_grow. cbn [env]. destruct (before_env p v s0 ltac:(lia) E0) as [<- _].
  rewrite nth_error_app2, Nat.sub_diag by lia. reflexivity.
Qed.
Lemma none_value : forall p v n s, (v < n)%nat -> (n <= length p)%nat -> before p n = Some s -> nth_error p v = Some NoneConst ->
  nth_error (env s) v = Some VNone.
Proof.
  intros p v n s Vn L H E. destruct (env_at p v n s Vn L H) as (o & s0 & s1 & Eo & E0 & St & _ & t & Et). rewrite E in Eo. injection Eo as <-.
  cbn in St. injection St as <-. rewrite Et. apply nth_grow. cbn [env]. destruct (before_env p v s0 ltac:(lia) E0) as [<- _].
  rewrite nth_error_app2, Nat.sub_diag by lia. reflexivity.
Qed.
Lemma mapM_grow : forall (l t : list value) ws c, mapM (nth_error l) ws = Some c -> mapM (nth_error (l ++ t)) ws = Some c.
Proof.
  intros l t ws. induction ws as [|w ws IH]; intros c; cbn; auto. destruct (nth_error l w) as [x|] eqn:E; [|discriminate]. rewrite (nth_grow _ l t w x E).
  cbn. destruct (mapM (nth_error l) ws) as [d|]; [|discriminate]. rewrite (IH d eq_refl). auto.
Qed.

(** C98. A list that no operation changes through its own value, and that no other value can
    hold, still has the elements it was built from. *)
Theorem C98_unchanged_list : forall p v vs n s, nth_error p v = Some (ListConstruct vs) -> ~ changed p v -> unshared p v ->
  (v < n)%nat -> (n <= length p)%nat -> before p n = Some s ->
  exists a c, nth_error (env s) v = Some (VList a) /\ nth_error (mem s) a = Some c /\ mapM (nth_error (env s)) vs = Some c.
Proof.
  intros p v vs n s Ev Nc Us Vn L H. destruct (env_at p v n s Vn L H) as (o & s0 & s1 & Eo & E0 & St & E1 & t & Et).
  rewrite Ev in Eo. injection Eo as <-. cbn [step_op] in St. take St. unfold fresh in St. injection St as St.
  destruct (before_env p v s0 ltac:(lia) E0) as [Lv Bv]. set (a := length (mem s0)).
  assert (A1 : alone v a l s1).
  { subst s1. split; [cbn [env]; rewrite nth_error_app2, Lv, Nat.sub_diag by lia; reflexivity|].
    split; [cbn [mem]; unfold a; rewrite nth_error_app2, Nat.sub_diag by lia; reflexivity|]. split.
    - intros w Hw. cbn [env] in Hw. apply nth_snoc in Hw as [Hw|[Hw _]]; [|lia]. exfalso.
      assert (a < length (mem s0))%nat by (apply Bv; left; eapply nth_error_In; eauto). unfold a in *. lia.
    - intros Hh. eapply in_heap_snoc in Hh; [|reflexivity]. cbn in Hh. assert (a < length (mem s0))%nat; [|unfold a in *; lia]. apply Bv.
      destruct Hh as [Hh|Hh]; [now right|]. left. destruct (mapM_in _ _ _ _ _ _ E Hh) as (w & _ & Hw). eapply nth_error_In; eauto. }
  assert (AL : forall m s', (S v <= m)%nat -> (m <= length p)%nat -> before p m = Some s' -> alone v a l s').
  { intros m s' Sm. revert s'. induction Sm as [|m Sm IH]; intros s' Lm Hm.
    - assert (s' = s1) by congruence. now subst.
    - destruct (nth_error p m) as [o|] eqn:Em; [|apply nth_error_None in Em; lia]. rewrite (before_S _ _ _ Em) in Hm.
      destruct (before p m) as [sm|] eqn:Es; [|discriminate]. cbn in Hm.
      eapply step_alone; [eapply nth_error_In; exact Em|exact Nc|exact Us| |apply IH; auto; lia|exact Hm].
      apply (before_env p m sm); auto. lia. }
  destruct (AL n s Vn L H) as (B1 & B2 & _). exists a, l. split; auto. split; auto.
  rewrite Et. apply mapM_grow. subst s1. cbn [env]. now apply mapM_grow.
Qed.
Lemma list_of_stable : forall p v vs n s, stable p v = Some vs -> unshared p v -> (v < n)%nat -> (n <= length p)%nat -> before p n = Some s ->
  exists a c, list_of s v = Some (a, c) /\ mapM (nth_error (env s)) vs = Some c.
Proof.
  intros p v vs n s Sv Us Vn L H. apply stable_spec in Sv as [Ev Nc]. destruct (C98_unchanged_list p v vs n s Ev Nc Us Vn L H) as (a & c & A & B & C).
  exists a, c. split; auto. apply list_of_some. auto.
Qed.

(** Without the second condition this fails: the list is changed through another name. *)
Definition aliased : program := [Const 1; ListConstruct [0%nat]; Alias 1; Append 2 0; Len 1].
Definition nested : program := [Const 1; Const 0; ListConstruct [0%nat]; ListConstruct [2%nat]; Getitem 3 1; Append 4 0; Len 2].
Theorem C98_aliased_list_refuted :
  (fold_len aliased 1 = Attr 1 /\ exists s s', before aliased 4 = Some s /\ step_op s (Len 1) = Some s' /\ nth_error (env s') 4 = Some (VInt 2)) /\
  (fold_len nested 2 = Attr 1 /\ exists s s', before nested 6 = Some s /\ step_op s (Len 2) = Some s' /\ nth_error (env s') 6 = Some (VInt 2)).
Proof. split; (split; [reflexivity|]); do 2 eexists; repeat split; reflexivity. Qed.

(** * The folders *)
Section Sound.
Variables (p : program) (n : nat) (s : state).
Hypothesis (Hssa : ssa p) (Hs : before p n = Some s).
Lemma at_len : forall o, nth_error p n = Some o -> (n <= length p)%nat.
Proof. intros o E. assert (n < length p)%nat by (apply nth_error_Some; congruence). lia. Qed.
Lemma mapM_len : forall vs (c : list value), mapM (nth_error (env s)) vs = Some c -> zlen vs = zlen c.
Proof. intros vs c H. apply mapM_length in H. unfold zlen. now rewrite H. Qed.
Lemma mapM_nth : forall A B (f : A -> option B) l r k x, mapM f l = Some r -> nth_error l k = Some x -> exists y, nth_error r k = Some y /\ f x = Some y.
Proof.
  intros A B f l r k x H. apply mapM_Forall2 in H. revert k. induction H; intros [|k] E; cbn in E; try discriminate.
  - injection E as <-. eexists. split; [reflexivity|auto].
  - destruct (IHForall2 k E) as (y' & ? & ?). exists y'. auto.
Qed.
Lemma py_index_legal : forall z m k, (0 <= m -> py_index z m = Some k <-> (let z' := to_positive_dim z m in is_valid_dim z' m = true /\ k = Z.to_nat z')).
Proof.
  intros z m k Pm. unfold py_index, to_positive_dim, is_valid_dim. cbv zeta.
  destruct (Z.leb_spec 0 z); cbn [andb].
  - destruct (Z.leb_spec 0 z); [|lia]. cbn [andb]. destruct (Z.ltb_spec z m).
    + split; [intros [= <-]; auto|intros [_ ->]; auto].
    + destruct (Z.ltb_spec z 0); [lia|]. cbn [andb]. split; [discriminate|intros [? _]; discriminate].
  - destruct (Z.ltb_spec z 0); [|lia]. cbn [andb]. destruct (Z.leb_spec 0 (z + m)); cbn [andb].
    + destruct (Z.ltb_spec (z + m) m); [|lia]. split; [intros [= <-]; auto|intros [_ ->]; auto].
    + split; [discriminate|intros [? _]; discriminate].
Qed.

Theorem C98_len : forall l z, nth_error p n = Some (Len l) -> unshared p l -> fold_len p l = Attr z -> step_op s (Len l) = result s (VInt z).
Proof.
  intros l z En Us F. unfold fold_len in F. destruct (stable p l) as [vs|] eqn:E; [|discriminate]. injection F as <-.
  assert (Ln : (l < n)%nat) by (eapply Hssa; eauto; now left). destruct (list_of_stable p l vs n s E Us Ln (at_len _ En) Hs) as (a & c & A & C).
  cbn [step_op]. rewrite A. cbn [obind snd]. now rewrite (mapM_len vs c C).
Qed.
Theorem C98_getitem : forall l i w, nth_error p n = Some (Getitem l i) -> unshared p l -> rewrite_getitem p l i = Some w ->
  exists x, nth_error (env s) w = Some x /\ step_op s (Getitem l i) = result s x.
Proof.
  intros l i w En Us F. unfold rewrite_getitem in F. destruct (stable p l) as [vs|] eqn:E; [|discriminate]. cbn [obind] in F.
  unfold legal_index in F. destruct (const_int p i) as [z|] eqn:Ei; [|discriminate]. cbn [obind] in F.
  assert (Ln : (l < n)%nat) by (eapply Hssa; eauto; now left). assert (In' : (i < n)%nat) by (eapply Hssa; eauto; now right; left).
  destruct (list_of_stable p l vs n s E Us Ln (at_len _ En) Hs) as (a & c & A & C).
  assert (Hi : int_of s i = Some z).
  { apply int_of_some. eapply const_value; eauto using at_len. unfold const_int in Ei. destruct (nth_error p i) as [[]|]; congruence. }
  destruct (is_valid_dim (to_positive_dim z (zlen vs)) (zlen vs)) eqn:V; [|discriminate]. cbn [obind] in F.
  destruct (mapM_nth _ _ _ _ _ _ _ C F) as (x & Hx & Hw). exists x. split; auto.
  cbn [step_op]. rewrite A. cbn [obind snd]. rewrite Hi. cbn [obind].
  assert (P : py_index z (zlen c) = Some (Z.to_nat (to_positive_dim z (zlen vs)))).
  { apply py_index_legal; [apply zlen_nonneg|]. rewrite <- (mapM_len vs c C). auto. }
  rewrite P. cbn [obind]. rewrite Hx. reflexivity.
Qed.
Lemma mapM_app2 : forall A B (f : A -> option B) l m r q, mapM f l = Some r -> mapM f m = Some q -> mapM f (l ++ m) = Some (r ++ q).
Proof.
  intros A B f l m. induction l as [|x l IH]; cbn; intros r q H K; [injection H as <-; auto|].
  destruct (f x); [|discriminate]. cbn in *. destruct (mapM f l) as [r'|]; [|discriminate]. injection H as <-. rewrite (IH r' q eq_refl K). reflexivity.
Qed.
Theorem C98_add : forall a b ws, nth_error p n = Some (AddT a b) -> unshared p a -> unshared p b -> rewrite_add p a b = Some ws ->
  step_op s (AddT a b) = step_op s (ListConstruct ws).
Proof.
  intros a b ws En Ua Ub F. unfold rewrite_add in F. destruct (stable p a) as [x|] eqn:Ea; [|discriminate]. destruct (stable p b) as [y|] eqn:Eb; [|discriminate].
  injection F as <-. assert (An : (a < n)%nat) by (eapply Hssa; eauto; now left). assert (Bn : (b < n)%nat) by (eapply Hssa; eauto; now right; left).
  destruct (list_of_stable p a x n s Ea Ua An (at_len _ En) Hs) as (a1 & c & A & C). destruct (list_of_stable p b y n s Eb Ub Bn (at_len _ En) Hs) as (b1 & d & B & D).
  cbn [step_op]. rewrite A, B, (mapM_app2 _ _ _ _ _ _ _ C D). reflexivity.
Qed.
Lemma mapM_repeat : forall A B (f : A -> option B) l r k, mapM f l = Some r -> mapM f (concat (repeat l k)) = Some (concat (repeat r k)).
Proof. intros A B f l r k H. induction k; cbn; auto. now apply mapM_app2. Qed.
Theorem C98_mul : forall l k ws, nth_error p n = Some (MulLeft l k) -> unshared p l -> rewrite_mul_left p l k = Some ws ->
  step_op s (MulLeft l k) = step_op s (ListConstruct ws).
Proof.
  intros l k ws En Us F. unfold rewrite_mul_left in F. destruct (stable p l) as [vs|] eqn:E; [|discriminate]. cbn [obind] in F.
  destruct (const_int p k) as [z|] eqn:Ek; [|discriminate]. injection F as <-.
  assert (Ln : (l < n)%nat) by (eapply Hssa; eauto; now left). assert (Kn : (k < n)%nat) by (eapply Hssa; eauto; now right; left).
  destruct (list_of_stable p l vs n s E Us Ln (at_len _ En) Hs) as (a & c & A & C).
  assert (Hk : int_of s k = Some z).
  { apply int_of_some. eapply const_value; eauto using at_len. unfold const_int in Ek. destruct (nth_error p k) as [[]|]; congruence. }
  cbn [step_op]. rewrite A. cbn [obind snd]. rewrite Hk. cbn [obind]. rewrite (mapM_repeat _ _ _ _ _ (Z.to_nat z) C). reflexivity.
Qed.
Theorem C98_unpack : forall l m ws, (l < n)%nat -> (n <= length p)%nat -> unshared p l -> rewrite_unpack p l m = Some ws ->
  exists a c, list_of s l = Some (a, c) /\ length c = m /\ mapM (nth_error (env s)) ws = Some c.
Proof.
  intros l m ws Ln Lp Us F. unfold rewrite_unpack in F. destruct (stable p l) as [vs|] eqn:E; [|discriminate]. cbn [obind] in F.
  destruct (Nat.eqb_spec (length vs) m) as [<-|]; [|discriminate]. injection F as <-.
  destruct (list_of_stable p l vs n s E Us Ln Lp Hs) as (a & c & A & C). exists a, c. split; auto. split; auto.
  apply mapM_length in C. auto.
Qed.

(** ** Slices *)
Lemma loop_spec : forall fuel i b k, 0 < k -> b - i <= Z.of_nat fuel ->
  loop fuel i b k = filter (fun j => (j - i) mod k =? 0) (zrange i b).
Proof.
  induction fuel as [|fuel IH]; intros i b k Pk Hf.
  - rewrite zrange_nil by lia. reflexivity.
  - cbn [loop]. destruct (Z.ltb_spec i b) as [L|L]; [|rewrite zrange_nil by lia; reflexivity].
    rewrite IH by lia. rewrite (zrange_cons i b) by lia. cbn [filter]. rewrite Z.sub_diag, Z.mod_0_l, Z.eqb_refl by lia. f_equal.
    assert (Q : forall j, (j - (i + k)) mod k = (j - i) mod k).
    { intros j. replace (j - i) with (j - (i + k) + 1 * k) by ring. now rewrite Z.mod_add by lia. }
    assert (Sk : forall m, i + 1 + Z.of_nat m <= i + k -> filter (fun j => (j - i) mod k =? 0) (zrange (i + 1) b) = filter (fun j => (j - i) mod k =? 0) (zrange (i + 1 + Z.of_nat m) b)).
    { induction m as [|m IHm]; intros Hm; [now rewrite Z.add_0_r|]. rewrite IHm by lia.
      destruct (Z.ltb_spec (i + 1 + Z.of_nat m) b) as [L'|L'].
      - rewrite (zrange_cons (i + 1 + Z.of_nat m)) by lia. cbn [filter]. rewrite Z.mod_small by lia. destruct (Z.eqb_spec (i + 1 + Z.of_nat m - i) 0); [lia|]. f_equal. f_equal. lia.
      - rewrite !zrange_nil by lia. reflexivity. }
    rewrite (Sk (Z.to_nat (k - 1))) by lia. replace (i + 1 + Z.of_nat (Z.to_nat (k - 1))) with (i + k) by lia.
    apply filter_ext. intros j. now rewrite Q.
Qed.
Lemma filter_zrange : forall (f : Z -> bool) a b m, 0 <= a -> b <= m -> filter (fun i => (a <=? i) && (i <? b) && f i) (zrange 0 m) = filter f (zrange a b).
Proof.
  intros f a b m Pa Pb. destruct (Z.ltb_spec a b) as [L|L].
  - assert (Z1 : forall x y z, x <= y <= z -> zrange x z = zrange x y ++ zrange y z).
    { intros x y z Hy. remember (Z.to_nat (z - y)) as q eqn:Eq. revert z Hy Eq. induction q as [|q IH]; intros z Hy Eq.
      - replace z with y by lia. rewrite (zrange_nil y y) by lia. now rewrite app_nil_r.
      - replace z with (z - 1 + 1) by lia. rewrite !zrange_snoc by lia. rewrite (IH (z - 1)) by lia. now rewrite app_assoc. }
    assert (Fn : forall x y, (y <= a \/ b <= x) -> filter (fun i => (a <=? i) && (i <? b) && f i) (zrange x y) = []).
    { intros x y Hxy. remember (Z.to_nat (y - x)) as q eqn:Eq. revert x Hxy Eq. induction q as [|q IH]; intros x Hxy Eq.
      - rewrite zrange_nil by lia. reflexivity.
      - rewrite zrange_cons by lia. cbn [filter]. replace ((a <=? x) && (x <? b) && f x) with false; [apply IH; lia|].
        symmetry. destruct (Z.leb_spec a x), (Z.ltb_spec x b); auto. lia. }
    rewrite (Z1 0 a m), (Z1 a b m), !filter_app, (Fn 0 a), (Fn b m) by lia. cbn [app]. rewrite app_nil_r.
    clear Z1 Fn. remember (Z.to_nat (b - a)) as q eqn:Eq.
    assert (G : forall q x, a <= x -> q = Z.to_nat (b - x) -> filter (fun i => (a <=? i) && (i <? b) && f i) (zrange x b) = filter f (zrange x b)).
    { clear q Eq. induction q as [|q IH]; intros x Hx Eq; [rewrite zrange_nil by lia; reflexivity|]. rewrite zrange_cons by lia. cbn [filter].
      rewrite (IH (x + 1)) by lia. replace ((a <=? x) && (x <? b)) with true; [reflexivity|]. symmetry. apply andb_true_intro. lia. }
    apply (G q a); auto. lia.
  - rewrite (zrange_nil a b) by lia. cbn. induction (zrange 0 m) as [|x l IH]; cbn; auto. replace ((a <=? x) && (x <? b)) with false; auto.
    symmetry. destruct (Z.leb_spec a x), (Z.ltb_spec x b); auto. lia.
Qed.
Lemma filter_in_range : forall (f : Z -> bool) a b k, In k (filter f (zrange a b)) -> a <= k < b.
Proof.
  intros f a b k H. apply filter_In in H as [H _]. revert H. remember (Z.to_nat (b - a)) as q eqn:Eq. revert a Eq. induction q as [|q IH]; intros a Eq H.
  - rewrite zrange_nil in H by lia. destruct H.
  - rewrite zrange_cons in H by lia. destruct H as [<-|H]; [lia|]. specialize (IH (a + 1) ltac:(lia) H). lia.
Qed.
Lemma pick_nth : forall vs ks ws (c : list value), pick vs ks = Some ws -> mapM (nth_error (env s)) vs = Some c ->
  mapM (fun q => nth_error c (Z.to_nat q)) ks = mapM (nth_error (env s)) ws.
Proof.
  intros vs ks. induction ks as [|k ks IH]; intros ws c H C; cbn in H; [injection H as <-; reflexivity|].
  destruct (k <? 0); [discriminate|]. destruct (nth_error vs (Z.to_nat k)) as [v|] eqn:E; [|discriminate]. cbn [obind] in H.
  unfold pick in IH. destruct (mapM _ ks) as [w|] eqn:E'; [|discriminate]. injection H as <-.
  destruct (mapM_nth _ _ _ _ _ _ _ C E) as (x & Hx & Hv). cbn [mapM]. rewrite Hx, Hv. cbn [obind]. now rewrite (IH w c eq_refl C).
Qed.
(** C98. Slices with a positive step. *)
Theorem C98_slice_partial : forall l a b c ws k, nth_error p n = Some (SliceT l a b c) -> unshared p l -> const_int p c = Some k -> 0 < k ->
  rewrite_slice p l a b c = NewList ws -> step_op s (SliceT l a b c) = step_op s (ListConstruct ws).
Proof.
  intros l a b c ws k En Us Ec Pk F. unfold rewrite_slice in F. destruct (stable p l) as [vs|] eqn:E; [|discriminate]. rewrite Ec in F.
  assert (Hl : (l < n)%nat) by (eapply Hssa; eauto; cbn; auto). assert (Ha : (a < n)%nat) by (eapply Hssa; eauto; cbn; auto).
  assert (Hb : (b < n)%nat) by (eapply Hssa; eauto; cbn; auto). assert (Hc : (c < n)%nat) by (eapply Hssa; eauto; cbn; auto).
  assert (Lp := at_len _ En). destruct (list_of_stable p l vs n s E Us Hl Lp Hs) as (ad & cs & A & C).
  assert (Zl := mapM_len vs cs C). assert (Zn := zlen_nonneg _ vs).
  assert (Hk : int_of s c = Some k). { apply int_of_some. eapply const_value; eauto. unfold const_int in Ec. destruct (nth_error p c) as [[]|]; congruence. }
  assert (Bd : forall none w, (w < n)%nat -> forall z, (if is_none p w then Some none else const_int p w) = Some z ->
    bound none s w (zlen cs) = if is_none p w then Some none else Some (Z.max 0 (Z.min (zlen cs) (if z <? 0 then z + zlen cs else z)))).
  { intros none w Hw z Hz. unfold bound, is_none, const_int in *. destruct (nth_error p w) as [[]|] eqn:Ew; try discriminate.
    - rewrite (const_value p w n s z0 Hw Lp Hs Ew). cbn [obind]. now injection Hz as <-.
    - rewrite (none_value p w n s Hw Lp Hs Ew). reflexivity. }
  destruct (if is_none p a then Some 0 else const_int p a) as [za|] eqn:Ea; [|discriminate].
  destruct (if is_none p b then Some (zlen vs) else const_int p b) as [zb|] eqn:Eb; [|discriminate].
  cbn [step_op]. rewrite A. cbn [obind snd].
  rewrite (Bd 0 a Ha za Ea), (Bd (zlen cs) b Hb zb) by (rewrite <- Zl; exact Eb).
  cbv zeta in F. set (a1 := if 0 <=? za then za else za + zlen vs) in *. set (a2 := if 0 <=? a1 then a1 else 0) in *.
  set (b1 := if 0 <=? zb then zb else zb + zlen vs) in *. set (b2 := if b1 <? zlen vs then b1 else zlen vs) in *.
  set (i := if is_none p a then 0 else Z.max 0 (Z.min (zlen cs) (if za <? 0 then za + zlen cs else za))).
  set (j := if is_none p b then zlen cs else Z.max 0 (Z.min (zlen cs) (if zb <? 0 then zb + zlen cs else zb))).
  replace (if is_none p a then Some 0 else Some _) with (Some i) by (unfold i; destruct (is_none p a); reflexivity).
  replace (if is_none p b then Some (zlen cs) else Some _) with (Some j) by (unfold j; destruct (is_none p b); reflexivity).
  cbn [obind]. rewrite Hk. cbn [obind]. destruct (Z.leb_spec k 0) as [?|_]; [lia|].
  assert (Hi : i = Z.min (zlen vs) a2).
  { unfold i, a2, a1. rewrite <- Zl. destruct (is_none p a).
    - injection Ea as <-. destruct (Z.leb_spec 0 0); [|lia]. destruct (Z.leb_spec 0 0); lia.
    - destruct (Z.ltb_spec za 0), (Z.leb_spec 0 za); try lia; match goal with |- context [if ?q then _ else _] => destruct q eqn:?Q end; lia. }
  assert (Hj : j = Z.max 0 b2).
  { unfold j, b2, b1. rewrite <- Zl. destruct (is_none p b).
    - injection Eb as <-. destruct (Z.leb_spec 0 (zlen vs)); [|lia]. destruct (Z.ltb_spec (zlen vs) (zlen vs)); lia.
    - destruct (Z.ltb_spec zb 0), (Z.leb_spec 0 zb); try lia; match goal with |- context [if ?q then _ else _] => destruct q eqn:?Q end; lia. }
  rewrite andb_false_r in F.
  assert (Pa : 0 <= a2) by (unfold a2; destruct (Z.leb_spec 0 a1); lia). assert (Pb : b2 <= zlen vs) by (unfold b2; destruct (Z.ltb_spec b1 (zlen vs)); lia).
  assert (Sl : slice_positions (zlen cs) i j k = loop (length vs) a2 b2 k).
  { rewrite loop_spec; [|auto|unfold zlen in *; lia]. unfold slice_positions. rewrite <- Zl. rewrite (filter_zrange (fun q => (q - i) mod k =? 0)) by lia.
    destruct (Z.ltb_spec a2 b2) as [L|L].
    - replace i with a2 by lia. replace j with b2 by lia. reflexivity.
    - rewrite !zrange_nil by lia. reflexivity. }
  rewrite Sl. destruct vs as [|v0 vs0]; [discriminate|]. destruct (pick (v0 :: vs0) (loop _ a2 b2 k)) as [ws'|] eqn:P; [|discriminate]. injection F as <-.
  rewrite (pick_nth _ _ _ cs P C). reflexivity.
Qed.

(** ** Comparisons and membership *)
Lemma ints_some : forall (c : list value) u, ints c = Some u <-> c = map VInt u.
Proof.
  intros c. unfold ints. induction c as [|x c IH]; intros u; cbn [mapM].
  - split; [intros [= <-]; reflexivity|]. destruct u; [reflexivity|discriminate].
  - split.
    + destruct x; try discriminate. cbn [obind]. destruct (mapM _ c) as [w|] eqn:E; [|discriminate]. intros [= <-]. cbn. f_equal. now apply IH.
    + destruct u as [|z u]; [discriminate|]. cbn. intros [= -> H]. cbn [obind]. apply IH in H. now rewrite H.
Qed.
Lemma bools_some : forall (c : list value) u, bools c = Some u <-> c = map VBool u.
Proof.
  intros c. unfold bools. induction c as [|x c IH]; intros u; cbn [mapM].
  - split; [intros [= <-]; reflexivity|]. destruct u; [reflexivity|discriminate].
  - split.
    + destruct x; try discriminate. cbn [obind]. destruct (mapM _ c) as [w|] eqn:E; [|discriminate]. intros [= <-]. cbn. f_equal. now apply IH.
    + destruct u as [|z u]; [discriminate|]. cbn. intros [= -> H]. cbn [obind]. apply IH in H. now rewrite H.
Qed.
Lemma constants_contents : forall vs zs, (n <= length p)%nat -> (forall v, In v vs -> (v < n)%nat) -> mapM (const_int p) vs = Some zs ->
  mapM (nth_error (env s)) vs = Some (map VInt zs).
Proof.
  intros vs zs Lp Hv. revert zs. induction vs as [|v vs IH]; intros zs; cbn [mapM]; [intros [= <-]; reflexivity|].
  destruct (const_int p v) as [z|] eqn:E; [|discriminate]. cbn [obind]. destruct (mapM _ vs) as [w|] eqn:E'; [|discriminate]. intros [= <-].
  rewrite (const_value p v n s z); auto using in_eq.
  - cbn [obind]. rewrite (IH (fun u Hu => Hv u (or_intror Hu)) w eq_refl). reflexivity.
  - unfold const_int in E. destruct (nth_error p v) as [[]|]; congruence.
Qed.
Lemma element_before : forall l vs v, (l < n)%nat -> nth_error p l = Some (ListConstruct vs) -> In v vs -> (v < n)%nat.
Proof. intros l vs v Ln E I. assert (v < l)%nat by (eapply Hssa; eauto). lia. Qed.

(** C98. Equality of lists of integers: two different lengths, or the same values. Nothing is checked about changes. *)
Theorem C98_eq_int_list_partial : forall a b r x, nth_error p n = Some (EqIntList a b) -> unshared p a -> unshared p b -> ~ changed p a -> ~ changed p b ->
  fold_eq_int_list p a b = Attr r -> step_op s (EqIntList a b) = result s x -> x = VBool r.
Proof.
  intros a b r x En Ua Ub Ca Cb F St. assert (An : (a < n)%nat) by (eapply Hssa; eauto; now left). assert (Bn : (b < n)%nat) by (eapply Hssa; eauto; now right; left).
  unfold fold_eq_int_list in F. destruct (construct p a) as [u|] eqn:Ea; [|discriminate]. destruct (construct p b) as [w|] eqn:Eb; [|discriminate].
  unfold construct in Ea, Eb. destruct (nth_error p a) as [[]|] eqn:Ea'; try discriminate. injection Ea as ->. destruct (nth_error p b) as [[]|] eqn:Eb'; try discriminate. injection Eb as ->.
  destruct (list_of_stable p a u n s ltac:(apply stable_spec; auto) Ua An (at_len _ En) Hs) as (a1 & c & A & C).
  destruct (list_of_stable p b w n s ltac:(apply stable_spec; auto) Ub Bn (at_len _ En) Hs) as (b1 & d & B & D).
  cbn [step_op] in St. rewrite A, B in St. cbn [obind snd] in St. unfold result in St.
  destruct (ints c) as [c'|] eqn:Ec; [|discriminate]. destruct (ints d) as [d'|] eqn:Ed; [|discriminate]. cbn [obind] in St.
  injection St as St. apply app_inj_tail in St as [_ St]. subst x. f_equal.
  apply ints_some in Ec, Ed. assert (Lc := mapM_length _ _ _ _ _ C). assert (Ld := mapM_length _ _ _ _ _ D).
  destruct (Nat.eqb_spec (length u) (length w)) as [L|L]; cbn [negb] in F.
  - destruct (forallb _ (combine u w)) eqn:G; [|discriminate]. injection F as <-.
    assert (u = w).
    { clear - L G. revert w L G. induction u as [|x u IH]; intros [|y w]; cbn; try discriminate; auto. intros L G. apply andb_prop in G as [G1 G2].
      apply Nat.eqb_eq in G1. subst y. f_equal. apply IH; auto. }
    subst w. assert (c = d) by congruence. assert (c' = d'). { assert (Q : map VInt c' = map VInt d') by congruence. clear - Q. revert d' Q. induction c'; intros [|]; cbn; try discriminate; auto. intros [= -> H]. f_equal. auto. }
    destruct (list_eq_dec Z.eq_dec c' d'); [auto|congruence].
  - injection F as <-. destruct (list_eq_dec Z.eq_dec c' d') as [e|]; auto. exfalso. apply L. rewrite <- Lc, <- Ld, Ec, Ed, !map_length. congruence.
Qed.
Theorem C98_contains : forall l x r, nth_error p n = Some (ContainsInt l x) -> fold_contains p l x = Attr r ->
  step_op s (ContainsInt l x) = result s (VBool r).
Proof.
  intros l x r En F. unfold fold_contains in F. destruct (only_contains p l) eqn:O; [|discriminate].
  destruct (const_int p x) as [z|] eqn:Ex; [|discriminate]. unfold list_of_constants in F. destruct (construct p l) as [vs|] eqn:E; [|discriminate]. cbn [obind] in F.
  destruct (mapM (const_int p) vs) as [zs|] eqn:Ez; [|discriminate]. injection F as <-.
  assert (Ln : (l < n)%nat) by (eapply Hssa; eauto; now left). assert (Xn : (x < n)%nat) by (eapply Hssa; eauto; now right; left).
  assert (El : nth_error p l = Some (ListConstruct vs)). { unfold construct in E. destruct (nth_error p l) as [[]|]; congruence. }
  assert (Only : forall o, In o p -> In l (operands o) -> exists q y, o = ContainsInt q y).
  { intros o Ho Hu. unfold only_contains in O. rewrite forallb_forall in O. specialize (O o Ho). apply uses_spec in Hu. rewrite Hu in O. destruct o; try discriminate. eauto. }
  assert (St : stable p l = Some vs).
  { apply stable_spec. split; auto. intros (o & Ho & Hu & M). destruct (Only o Ho Hu) as (q & y & ->). destruct M as [(? & ? & M)|(? & ? & ? & M)]; discriminate. }
  assert (Us : unshared p l). { intros o Ho Hu. destruct (Only o Ho Hu) as (q & y & ->). split; discriminate. }
  destruct (list_of_stable p l vs n s St Us Ln (at_len _ En) Hs) as (a & c & A & C).
  assert (C' : c = map VInt zs). { assert (Q := constants_contents vs zs (at_len _ En) (fun v => element_before l vs v Ln El) Ez). congruence. }
  cbn [step_op]. rewrite A. cbn [obind snd]. rewrite (proj2 (ints_some c zs) C'). cbn [obind].
  rewrite (proj2 (int_of_some s x z)); [|eapply const_value; eauto using at_len; unfold const_int in Ex; destruct (nth_error p x) as [[]|]; congruence].
  cbn [obind]. f_equal. f_equal. destruct (in_dec Z.eq_dec z zs) as [I|I].
  - symmetry. apply existsb_exists. exists z. split; auto. apply Z.eqb_refl.
  - symmetry. apply not_true_is_false. intros H. apply existsb_exists in H as (q & Hq & Q). apply Z.eqb_eq in Q. subst. contradiction.
Qed.
Lemma min_element_spec : forall zs z, min_element z zs = fold_right Z.min z zs.
Proof.
  assert (G : forall zs z, fold_left (fun a b => if b <? a then b else a) zs z = fold_right Z.min z zs); [|exact G].
  induction zs as [|y zs IH]; intros z; cbn; auto. rewrite IH. replace (if y <? z then y else z) with (Z.min y z) by (destruct (Z.ltb_spec y z); lia).
  clear IH. induction zs as [|w zs IH]; cbn; auto. rewrite IH. lia.
Qed.
Theorem C98_min_partial : forall l z, nth_error p n = Some (MinSelf l) -> unshared p l -> ~ changed p l ->
  fold_min_self p l = Attr z -> step_op s (MinSelf l) = result s (VInt z).
Proof.
  intros l z En Us Nc F. unfold fold_min_self, list_of_constants in F. destruct (construct p l) as [vs|] eqn:E; [|discriminate]. cbn [obind] in F.
  destruct (mapM (const_int p) vs) as [zs|] eqn:Ez; [|discriminate]. assert (Ln : (l < n)%nat) by (eapply Hssa; eauto; now left).
  assert (El : nth_error p l = Some (ListConstruct vs)). { unfold construct in E. destruct (nth_error p l) as [[]|]; congruence. }
  destruct (list_of_stable p l vs n s ltac:(apply stable_spec; auto) Us Ln (at_len _ En) Hs) as (a & c & A & C).
  assert (C' : c = map VInt zs). { assert (Q := constants_contents vs zs (at_len _ En) (fun v => element_before l vs v Ln El) Ez). congruence. }
  cbn [step_op]. rewrite A. cbn [obind snd]. rewrite (proj2 (ints_some c zs) C'). cbn [obind].
  destruct zs as [|y zs]; [discriminate|]. injection F as <-. now rewrite min_element_spec.
Qed.
Theorem C98_any_all : forall l r x, unshared p l ->
  (nth_error p n = Some (AnyBool l) -> fold_any p l = Attr r -> step_op s (AnyBool l) = result s x -> x = VBool r) /\
  (nth_error p n = Some (AllBool l) -> fold_all p l = Attr r -> step_op s (AllBool l) = result s x -> x = VBool r).
Proof.
  intros l r x Us. assert (K : forall vs, stable p l = Some vs -> (l < n)%nat -> (n <= length p)%nat -> forall b, forall v, In v vs -> const_bool p v = Some b ->
    forall a c u, list_of s l = Some (a, c) -> mapM (nth_error (env s)) vs = Some c -> bools c = Some u -> In b u).
  { intros vs Sv Ln Lp b v Iv Eb a c u A C U. apply bools_some in U. subst c. apply stable_spec in Sv as [El _].
    apply In_nth_error in Iv as [k Hk]. destruct (mapM_nth _ _ _ _ _ _ _ C Hk) as (y & Hy & Hv).
    rewrite (const_bool_value p v n s b) in Hv; auto; [|eapply element_before; eauto; eapply nth_error_In; eauto|unfold const_bool in Eb; destruct (nth_error p v) as [[]|]; congruence].
    injection Hv as <-. apply nth_error_In in Hy. apply in_map_iff in Hy as (b' & [= ->] & Hb). auto. }
  split; intros En F St.
  - unfold fold_any in F. destruct (stable p l) as [vs|] eqn:E; [|discriminate]. destruct (existsb _ vs) eqn:G; [|discriminate]. injection F as <-.
    assert (Ln : (l < n)%nat) by (eapply Hssa; eauto; now left). destruct (list_of_stable p l vs n s E Us Ln (at_len _ En) Hs) as (a & c & A & C).
    cbn [step_op] in St. rewrite A in St. cbn [obind snd] in St. destruct (bools c) as [u|] eqn:U; [|discriminate]. unfold result in St. cbn [obind] in St.
    injection St as St. apply app_inj_tail in St as [_ St]. subst x. f_equal.
    apply existsb_exists in G as (v & Iv & Q). destruct (const_bool p v) as [[]|] eqn:Eb; try discriminate.
    destruct (in_dec bool_dec true u) as [|N]; auto. exfalso. apply N. eapply (K vs); eauto using at_len.
  - unfold fold_all in F. destruct (stable p l) as [vs|] eqn:E; [|discriminate].
    assert (Ln : (l < n)%nat) by (eapply Hssa; eauto; now left). destruct (list_of_stable p l vs n s E Us Ln (at_len _ En) Hs) as (a & c & A & C).
    cbn [step_op] in St. rewrite A in St. cbn [obind snd] in St. destruct (bools c) as [u|] eqn:U; [|discriminate]. unfold result in St. cbn [obind] in St.
    injection St as St. apply app_inj_tail in St as [_ St]. subst x. f_equal.
    destruct (existsb _ vs) eqn:G.
    + injection F as <-. apply existsb_exists in G as (v & Iv & Q). destruct (const_bool p v) as [[]|] eqn:Eb; try discriminate.
      destruct (in_dec bool_dec false u) as [|N]; auto. exfalso. apply N. eapply (K vs); eauto using at_len.
    + destruct (forallb _ vs) eqn:G'; [|discriminate]. injection F as <-. destruct (in_dec bool_dec false u) as [I|]; auto. exfalso.
      apply bools_some in U. subst c. apply stable_spec in E as [El _].
      assert (Iv : In (VBool false) (map VBool u)) by (apply in_map_iff; eauto). destruct (mapM_in _ _ _ _ _ _ C Iv) as (v & Hv & Ev).
      rewrite forallb_forall in G'. specialize (G' v Hv). destruct (const_bool p v) as [b|] eqn:Eb; [|discriminate].
      rewrite (const_bool_value p v n s b) in Ev; eauto using at_len; [|eapply element_before; eauto|unfold const_bool in Eb; destruct (nth_error p v) as [[]|]; congruence].
      injection Ev as ->. assert (existsb (fun w => match const_bool p w with Some false => true | _ => false end) vs = true).
      { apply existsb_exists. exists v. rewrite Eb. auto. }
      congruence.
Qed.
End Sound.

(** Comparing and taking the minimum of a list that was appended to. *)
Definition appended : program := [Const 1; Const 0; ListConstruct [0%nat]; ListConstruct [0%nat]; Append 2 1; EqIntList 2 3; MinSelf 2].
Theorem C98_mutation_refuted :
  fold_eq_int_list appended 2 3 = Attr true /\ fold_min_self appended 2 = Attr 1 /\ ssa appended /\ unshared appended 2 /\
  exists s s', before appended 5 = Some s /\ step_op s (EqIntList 2 3) = result s (VBool false) /\ before appended 6 = Some s' /\ step_op s' (MinSelf 2) = result s' (VInt 0).
Proof.
  split; [reflexivity|]. split; [reflexivity|]. split; [|split].
  - intros n o v En Iv. do 7 (destruct n as [|n]; [cbn in En; injection En as <-; cbn in Iv; lia|]). destruct n; discriminate.
  - intros o Ho Iv. cbn in Ho. repeat (destruct Ho as [<-|Ho]; [cbn in Iv; split; try discriminate; intros ? E; try discriminate; intuition lia|]). destruct Ho.
  - do 2 eexists. repeat split; reflexivity.
Qed.
(** A step of zero never ends, a negative one leaves the list, and an empty list has no first element. *)
Theorem C98_slice_refuted : forall p l a b c vs za zb k, stable p l = Some vs -> nth_error p a = Some (Const za) -> nth_error p b = Some (Const zb) ->
  nth_error p c = Some (Const k) -> 0 <= za -> 0 <= zb -> za < zb -> za < zlen vs -> k <= 0 \/ vs = [] -> rewrite_slice p l a b c = Crash.
Proof.
  intros p l a b c vs za zb k Sv Ea Eb Ec Pa Pb Lab La H. unfold rewrite_slice, is_none, const_int. rewrite Sv, Ea, Eb, Ec.
  destruct (Z.leb_spec 0 za); [|lia]. destruct (Z.leb_spec 0 za); [|lia]. destruct (Z.leb_spec 0 zb); [|lia].
  destruct H as [H| ->]; [|cbn in La; unfold zlen in La; cbn in La; lia].
  replace (k <=? 0) with true by (symmetry; now apply Z.leb_le). replace (za <? (if zb <? zlen vs then zb else zlen vs)) with true; [reflexivity|].
  symmetry. apply Z.ltb_lt. destruct (zb <? zlen vs); lia.
Qed.
Theorem C98_empty_slice_refuted : forall p l a b c za zb k, stable p l = Some [] -> nth_error p a = Some (Const za) -> nth_error p b = Some (Const zb) ->
  nth_error p c = Some (Const k) -> rewrite_slice p l a b c = Crash.
Proof. intros p l a b c za zb k Sv Ea Eb Ec. unfold rewrite_slice, is_none, const_int. rewrite Sv, Ea, Eb, Ec. destruct (_ && _); reflexivity. Qed.

(** * When they apply *)
Theorem C98_applies : forall p,
  (forall l, fold_len p l <> NoFold <-> exists vs, nth_error p l = Some (ListConstruct vs) /\ ~ changed p l) /\
  (forall a b, (exists ws, rewrite_add p a b = Some ws) <-> exists x y, nth_error p a = Some (ListConstruct x) /\ ~ changed p a /\ nth_error p b = Some (ListConstruct y) /\ ~ changed p b) /\
  (forall l k, (exists ws, rewrite_mul_left p l k = Some ws) <-> exists vs z, nth_error p l = Some (ListConstruct vs) /\ ~ changed p l /\ nth_error p k = Some (Const z)) /\
  (forall l m, (exists ws, rewrite_unpack p l m = Some ws) <-> exists vs, nth_error p l = Some (ListConstruct vs) /\ ~ changed p l /\ length vs = m) /\
  (forall l i, (exists w, rewrite_getitem p l i = Some w) <-> exists vs z, nth_error p l = Some (ListConstruct vs) /\ ~ changed p l /\ nth_error p i = Some (Const z) /\ - zlen vs <= z < zlen vs) /\
  (forall l, fold_min_self p l <> NoFold <-> exists v vs, nth_error p l = Some (ListConstruct (v :: vs)) /\ forall w, In w (v :: vs) -> exists z, nth_error p w = Some (Const z)).
Proof.
  intros p. assert (CI : forall v z, const_int p v = Some z <-> nth_error p v = Some (Const z)).
  { intros v z. unfold const_int. destruct (nth_error p v) as [[]|]; split; congruence. }
  split; [|split; [|split; [|split; [|split]]]].
  - intros l. unfold fold_len. destruct (stable p l) as [vs|] eqn:E.
    + split; [|discriminate]. intros _. exists vs. now apply stable_spec.
    + split; [congruence|]. intros (vs & H). apply stable_spec in H. congruence.
  - intros a b. unfold rewrite_add. split.
    + intros (ws & H). destruct (stable p a) as [x|] eqn:Ea; [|discriminate]. destruct (stable p b) as [y|] eqn:Eb; [|discriminate].
      apply stable_spec in Ea as [? ?], Eb as [? ?]. exists x, y. auto.
    + intros (x & y & A & B & C & D). rewrite (proj2 (stable_spec p a x) (conj A B)), (proj2 (stable_spec p b y) (conj C D)). cbn. eauto.
  - intros l k. unfold rewrite_mul_left. split.
    + intros (ws & H). destruct (stable p l) as [x|] eqn:E; [|discriminate]. cbn [obind] in H. destruct (const_int p k) as [z|] eqn:K; [|discriminate].
      apply stable_spec in E as [? ?]. exists x, z. rewrite <- CI. auto.
    + intros (x & z & A & B & C). apply CI in C. rewrite (proj2 (stable_spec p l x) (conj A B)), C. cbn. eauto.
  - intros l m. unfold rewrite_unpack. split.
    + intros (ws & H). destruct (stable p l) as [x|] eqn:E; [|discriminate]. cbn [obind] in H. destruct (Nat.eqb_spec (length x) m); [|discriminate].
      apply stable_spec in E as [? ?]. exists x. auto.
    + intros (x & A & B & C). rewrite (proj2 (stable_spec p l x) (conj A B)). cbn [obind]. subst m. rewrite Nat.eqb_refl. eauto.
  - intros l i. unfold rewrite_getitem, legal_index. split.
    + intros (w & H). destruct (stable p l) as [x|] eqn:E; [|discriminate]. cbn [obind] in H. destruct (const_int p i) as [z|] eqn:K; [|discriminate]. cbn [obind] in H.
      destruct (is_valid_dim (to_positive_dim z (zlen x)) (zlen x)) eqn:V; [|discriminate]. apply stable_spec in E as [? ?]. exists x, z. rewrite <- CI. split; auto. split; auto. split; auto.
      unfold is_valid_dim, to_positive_dim in V. assert (P := zlen_nonneg _ x). destruct (Z.leb_spec 0 z); lia.
    + intros (x & z & A & B & C & D). apply CI in C. rewrite (proj2 (stable_spec p l x) (conj A B)), C. cbn [obind].
      assert (V : is_valid_dim (to_positive_dim z (zlen x)) (zlen x) = true) by (unfold is_valid_dim, to_positive_dim; destruct (Z.leb_spec 0 z); lia).
      rewrite V. cbn [obind]. unfold is_valid_dim in V. destruct (nth_error x _) as [w|] eqn:N; [eauto|]. apply nth_error_None in N. unfold zlen in *. lia.
  - intros l. unfold fold_min_self, list_of_constants, construct. split.
    + intros H. destruct (nth_error p l) as [[]|]; try (now exfalso; apply H). cbn [obind] in H. destruct (mapM (const_int p) vs) as [zs|] eqn:M; [|now exfalso; apply H].
      destruct zs as [|z zs]; [now exfalso; apply H|]. destruct vs as [|v vs]; [discriminate|]. exists v, vs. split; auto. intros w Iw.
      apply In_nth_error in Iw as [k Hk]. destruct (mapM_nth _ _ _ _ _ _ _ M Hk) as (y & _ & Hy). exists y. now apply CI.
    + intros (v & vs & -> & H). cbn [obind]. assert (Q : exists zs, mapM (const_int p) (v :: vs) = Some zs).
      { revert H. generalize (v :: vs). intros us. induction us as [|u us IH]; intros H; [exists []; reflexivity|]. destruct (H u (or_introl eq_refl)) as [z Hz]. apply CI in Hz.
        destruct (IH (fun w I => H w (or_intror I))) as [zs Hzs]. cbn. rewrite Hz. cbn. rewrite Hzs. cbn. eauto. }
      destruct Q as [zs Q]. rewrite Q. destruct zs; [|discriminate]. apply mapM_length in Q. discriminate.
Qed.
Theorem C98_constant_lists_apply : forall p l,
  (forall vs, stable p l = Some vs ->
     (fold_any p l = Attr true <-> exists v, In v vs /\ nth_error p v = Some (ConstBool true)) /\ fold_any p l <> Attr false /\
     (fold_all p l = Attr false <-> exists v, In v vs /\ nth_error p v = Some (ConstBool false)) /\
     (fold_all p l = Attr true <-> forall v, In v vs -> nth_error p v = Some (ConstBool true))) /\
  (forall vs x z zs, (forall o, In o p -> In l (operands o) -> exists a b, o = ContainsInt a b) -> nth_error p l = Some (ListConstruct vs) ->
     nth_error p x = Some (Const z) -> Forall2 (fun v w => nth_error p v = Some (Const w)) vs zs -> exists r, fold_contains p l x = Attr r /\ (r = true <-> In z zs)).
Proof.
  intros p l. split.
  - intros vs St. unfold fold_any, fold_all. rewrite St.
    assert (CB : forall v b, const_bool p v = Some b <-> nth_error p v = Some (ConstBool b)).
    { intros v b. unfold const_bool. destruct (nth_error p v) as [o|]; [destruct o|]; split; congruence. }
    assert (Ex : forall b, existsb (fun v => match const_bool p v with Some c => Bool.eqb b c | None => false end) vs = true <-> exists v, In v vs /\ nth_error p v = Some (ConstBool b)).
    { intros b. rewrite existsb_exists. split; intros (v & Hv & H); exists v; (split; [auto|]).
      - destruct (const_bool p v) eqn:E; [|discriminate]. apply Bool.eqb_prop in H. subst. now apply CB.
      - apply CB in H. rewrite H. apply Bool.eqb_reflx. }
    assert (E1 := Ex true). assert (E2 := Ex false).
    replace (existsb (fun v => match const_bool p v with Some true => true | _ => false end) vs) with (existsb (fun v => match const_bool p v with Some c => Bool.eqb true c | None => false end) vs)
      by (clear; induction vs; cbn; auto; rewrite IHvs; destruct (const_bool p a) as [[]|]; auto).
    replace (existsb (fun v => match const_bool p v with Some false => true | _ => false end) vs) with (existsb (fun v => match const_bool p v with Some c => Bool.eqb false c | None => false end) vs)
      by (clear; induction vs; cbn; auto; rewrite IHvs; destruct (const_bool p a) as [[]|]; auto).
    set (x := existsb (fun v => match const_bool p v with Some c => Bool.eqb true c | None => false end) vs) in *.
    set (y := existsb (fun v => match const_bool p v with Some c => Bool.eqb false c | None => false end) vs) in *.
    assert (Fa : forallb (fun v => match const_bool p v with Some _ => true | _ => false end) vs = true <-> forall v, In v vs -> exists b, nth_error p v = Some (ConstBool b)).
    { rewrite forallb_forall. split; intros H v Hv; specialize (H v Hv).
      - destruct (const_bool p v) as [b|] eqn:E; [|discriminate]. exists b. now apply CB.
      - destruct H as [b H]. apply CB in H. now rewrite H. }
    split; [rewrite <- E1; destruct x; split; congruence|]. split; [destruct x; discriminate|]. rewrite <- E2. split.
    + destruct y; [split; auto|]. destruct (forallb _ vs); split; congruence.
    + destruct y.
      * split; [discriminate|]. intros H. destruct (proj1 E2 eq_refl) as (v & Hv & Ev). rewrite (H v Hv) in Ev. discriminate.
      * destruct (forallb _ vs) eqn:F.
        -- split; auto. intros _ v Hv. destruct (proj1 Fa eq_refl v Hv) as [[|] Eb]; auto. assert (C : false = true) by (apply E2; eauto). discriminate.
        -- split; [discriminate|]. intros H. assert (C : false = true) by (apply Fa; intros v Hv; eauto). discriminate.
  - intros vs x z zs Hu El Ex Hc. unfold fold_contains.
    assert (O : only_contains p l = true).
    { unfold only_contains. apply forallb_forall. intros o Ho. destruct (uses l o) eqn:U; auto. unfold uses in U. apply existsb_exists in U as (w & Hw & E). apply Nat.eqb_eq in E. subst w.
      destruct (Hu o Ho Hw) as (a & b & ->). reflexivity. }
    rewrite O. unfold const_int at 1. rewrite Ex. unfold list_of_constants, construct. rewrite El. cbn [obind].
    assert (M : mapM (const_int p) vs = Some zs). { clear - Hc. induction Hc as [|v w vs zs H Hc IH]; [reflexivity|]. cbn [mapM]. unfold const_int at 1. rewrite H. cbn [obind]. now rewrite IH. }
    rewrite M. eexists. split; [reflexivity|]. rewrite existsb_exists. split; [intros (w & Hw & E); apply Z.eqb_eq in E; now subst|]. intros H. exists z. split; auto. apply Z.eqb_refl.
Qed.

(** * Tuples and dictionaries *)
(** A tuple's element is read with the index as it is: from the front it is right, from the end out of bounds. *)
Theorem C98_tuple_index_partial : forall elements z v, 0 <= z -> (rewrite_tuple_index elements (Some z) = Attr v <-> nth_error elements (Z.to_nat z) = Some v) /\
  rewrite_tuple_index elements (Some z) <> Undefined.
Proof.
  intros elements z v Pz. unfold rewrite_tuple_index. destruct (Z.leb_spec (zlen elements) z) as [L|L].
  - split; [|discriminate]. split; [discriminate|]. intros H. assert (Z.to_nat z < length elements)%nat by (apply nth_error_Some; congruence). unfold zlen in L. lia.
  - destruct (Z.ltb_spec z 0); [lia|]. destruct (nth_error elements (Z.to_nat z)) as [w|] eqn:E; [split; [split; congruence|discriminate]|].
    apply nth_error_None in E. unfold zlen in L. lia.
Qed.
Theorem C98_tuple_index_refuted : forall elements z, z < 0 -> rewrite_tuple_index elements (Some z) = Undefined.
Proof.
  intros elements z L. unfold rewrite_tuple_index. assert (P := zlen_nonneg _ elements). destruct (Z.leb_spec (zlen elements) z); [lia|].
  destruct (Z.ltb_spec z 0); [reflexivity|lia].
Qed.
(** A dictionary built from pairs: a later pair replaces an earlier one with the same key. *)
Section Dict.
Variables (K V : Type) (keys : nat -> K) (vals : nat -> V).
Definition maps (pairs : list (nat * nat)) (k : K) (x : V) : Prop :=
  exists before_ key v after, pairs = before_ ++ (key, v) :: after /\ keys key = k /\ vals v = x /\ forall q, In q after -> keys (fst q) <> k.
Theorem C98_dict_getitem_partial : forall pairs key v, NoDup (map (fun q => keys (fst q)) pairs) -> fold_dict_getitem true pairs key = Some v -> maps pairs (keys key) (vals v).
Proof.
  intros pairs key v. unfold fold_dict_getitem. induction pairs as [|[k w] pairs IH]; intros N F; cbn [find fst obind] in F; [discriminate|].
  cbn [map fst] in N. inversion N as [|? ? Nk N' E1]. subst. destruct (Nat.eqb_spec k key) as [->|D].
  - cbn [obind snd] in F. injection F as <-. exists [], key, w, pairs. split; auto. split; auto. split; auto. intros q Iq E. apply Nk. apply in_map_iff. eauto.
  - destruct (IH N' F) as (b & k' & v' & a & -> & E1 & E2 & E3). exists ((k, w) :: b), k', v', a. auto.
Qed.
Theorem C98_dict_contains : forall pairs key r, fold_dict_contains true pairs key = Attr r -> r = true /\ exists q, In q pairs /\ keys (fst q) = keys key.
Proof.
  intros pairs key r. unfold fold_dict_contains. destruct (existsb _ pairs) eqn:E; [|discriminate]. intros [= <-]. split; auto.
  apply existsb_exists in E as (q & Iq & Q). apply Nat.eqb_eq in Q. exists q. subst. auto.
Qed.
End Dict.
Theorem C98_dict_applies : forall b pairs key, (fold_dict_getitem b pairs key <> None <-> b = true /\ exists v, In (key, v) pairs) /\
  (fold_dict_contains b pairs key <> NoFold <-> b = true /\ exists v, In (key, v) pairs).
Proof.
  intros b pairs key. unfold fold_dict_getitem, fold_dict_contains. destruct b; [|split; (split; [congruence|intros [? _]; discriminate])].
  assert (F : (exists v, In (key, v) pairs) <-> existsb (fun q => Nat.eqb (fst q) key) pairs = true).
  { rewrite existsb_exists. split; [intros (v & I); exists (key, v); split; auto; apply Nat.eqb_refl|intros ([k v] & I & E); apply Nat.eqb_eq in E; cbn in E; subst; eauto]. }
  rewrite F. split.
  - destruct (find _ pairs) as [q|] eqn:E; cbn [obind].
    + apply find_some in E as [I E]. split; [|discriminate]. intros _. split; auto. apply existsb_exists. eauto.
    + split; [congruence|]. intros [_ H]. apply existsb_exists in H as (q & I & Q). apply (find_none _ _ E) in I. congruence.
  - destruct (existsb _ pairs); split; intros; auto; try discriminate; try congruence. now destruct H.
Qed.
(** {"a": 1, "a": 2}["a"] is 2; through the key of the first pair it is folded to 1. *)
Theorem C98_dict_getitem_refuted : exists (keys : nat -> bool) (vals : nat -> Z) pairs key v, fold_dict_getitem true pairs key = Some v /\
  vals v = 1 /\ maps _ _ keys vals pairs (keys key) 2 /\ ~ maps _ _ keys vals pairs (keys key) 1.
Proof.
  exists (fun _ => true), Z.of_nat, [(0, 1); (1, 2)]%nat, 0%nat, 1%nat. split; [reflexivity|]. split; [reflexivity|]. split.
  - exists [(0, 1)]%nat, 1%nat, 2%nat, []. repeat split; auto.
  - intros (b & k & v & a & E & _ & V & N). destruct b as [|q b]; cbn in E; injection E as E1 E2; [|].
    + subst. apply (N (1, 2)%nat); auto. now left.
    + destruct b as [|q' b]; cbn in E2; [injection E2 as E3 E4; subst; discriminate|]. injection E2 as _ E2. destruct b; discriminate.
Qed.

Definition sample : program :=
  [Const 5; Const 7; ListConstruct [0%nat; 1%nat]; Const (-1); Getitem 2 3; AddT 2 2; Len 2; Const 1; NoneConst; SliceT 2 7 8 7].
Example C98_nonvacuous :
  rewrite_getitem sample 2 3 = Some 1%nat /\ fold_len sample 2 = Attr 2 /\ rewrite_add sample 2 2 = Some [0; 1; 0; 1]%nat /\
  rewrite_slice sample 2 7 8 7 = NewList [1%nat] /\ ssa sample /\ unshared sample 2 /\
  exists s, run sample = Some s /\ nth_error (env s) 4 = Some (VInt 7) /\ list_of s 5 = Some (1%nat, [VInt 5; VInt 7; VInt 5; VInt 7]) /\ list_of s 9 = Some (2%nat, [VInt 7]).
Proof.
  split; [reflexivity|]. split; [reflexivity|]. split; [reflexivity|]. split; [reflexivity|]. split; [|split].
  - intros n o v En Iv. do 10 (destruct n as [|n]; [cbn in En; injection En as <-; cbn in Iv; lia|]). destruct n; discriminate.
  - intros o Ho Iv. cbn in Ho. repeat (destruct Ho as [<-|Ho]; [cbn in Iv; split; try discriminate; intros ? E; try discriminate; intuition lia|]). destruct Ho.
  - eexists. repeat split; reflexivity.
Qed.
Print Assumptions C98_unchanged_list.
Print Assumptions C98_aliased_list_refuted.
Print Assumptions C98_len.
Print Assumptions C98_getitem.
Print Assumptions C98_add.
Print Assumptions C98_mul.
Print Assumptions C98_unpack.
Print Assumptions C98_slice_partial.
Print Assumptions C98_eq_int_list_partial.
Print Assumptions C98_contains.
Print Assumptions C98_min_partial.
Print Assumptions C98_any_all.
Print Assumptions C98_mutation_refuted.
Print Assumptions C98_slice_refuted.
Print Assumptions C98_empty_slice_refuted.
Print Assumptions C98_applies.
Print Assumptions C98_tuple_index_partial.
Print Assumptions C98_tuple_index_refuted.
Print Assumptions C98_dict_getitem_partial.
Print Assumptions C98_dict_contains.
Print Assumptions C98_dict_applies.
Print Assumptions C98_dict_getitem_refuted.
Print Assumptions C98_constant_lists_apply.
