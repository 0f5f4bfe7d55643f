(** C124: the analysis and rewriting of InlineGlobalSlots. *)
From Coq Require Import Bool PeanoNat Lia List.
From Verif Require Import Prelude InlineSlotsModel InlineSlotsSpec InlineSlotsProofs InlineSlotsHeap.
Import ListNotations.
Open Scope nat_scope.

(** What the analysis finds: the values and slots from which a change, a public slot or an assignment is reached *)
Theorem C124_analysis : forall a p, declared_first p -> typed_once p ->
  exists st, analyse a p = Some st /\ (forall n, In n (unsafe_values st) <-> bad_value p n) /\ (forall s, In s (unsafe_slots st) <-> bad_slot p s).
Proof. intros a p D T. exact (analyse_exact a p T D). Qed.
Print Assumptions C124_analysis.

Lemma module_first : forall passes m, well_formed passes m -> declared_first (program m).
Proof.
  intros passes m W. exists (decls m), (initializer m ++ terminator (init_slots m) (init_values m) :: rest m). split; [reflexivity|]. split.
  - intros o I. destruct (declarations _ _ W _ I) as [(s & b & K) R]. eauto.
  - split; [|exact (declared_once _ _ W)]. intros o s b I. apply in_app_or in I. destruct I as [I|[<-|I]]; [|discriminate|].
    + destruct (plain_init _ _ W _ I) as [(k & K) _]. congruence.
    + exact (proj2 (plain_rest _ _ W _ I) s b).
Qed.
Definition can_stand_for (m : module) (s : nat) : Prop :=
  exists i v, nth_error (init_slots m) i = Some s /\ nth_error (init_values m) i = Some v /\ ~ bad_slot (program m) s
    /\ forall o r, depends (initializer m) (fst v) o -> In r (results o) -> ~ bad_value (program m) (fst r).
Definition chosen_slots (a : bool) (m : module) : option (list nat) := do st <- analyse a (program m); Some (chosen st (initializer m) (init_slots m) (init_values m)).

(** Which slots are inlined *)
Theorem C124_chosen : forall passes a m, well_formed passes m -> ordered (initializer m) ->
  exists l, chosen_slots a m = Some l /\ forall s, In s l <-> can_stand_for m s.
Proof.
  intros passes a m W O. destruct (C124_analysis a (program m) (module_first _ _ W) (one_type _ _ W)) as (st & A & B & C). unfold chosen_slots. rewrite A. cbn. eexists. split; [reflexivity|].
  intros s. rewrite chosen_in. unfold can_stand_for. split; intros (i & v & N & N' & NS & NB); exists i, v; (split; [exact N|]); (split; [exact N'|]); (split; [intros Q; apply NS, C; exact Q|]).
  - intros o r D R Q. apply (NB o r); [apply slice_depends; assumption|exact R|apply B; exact Q].
  - intros o r D R Q. apply (NB o r); [apply slice_depends; assumption|exact R|apply B; exact Q].
Qed.
Print Assumptions C124_chosen.

(** No object that is reached from such a slot is changed, whatever the functions do in whatever order *)
Theorem C124_unchanged : forall passes m s h0 h1 h2 h x,
  well_formed passes m -> nothing_handed_on passes m -> declares_nothing_passed passes m -> ordered (initializer m) -> can_stand_for m s ->
  empty h0 -> runs_in_order passes (initializer m) h0 h1 -> executes passes (terminator (init_slots m) (init_values m)) h1 h2 -> runs passes (rest m) h2 h ->
  slot_reach h s x -> ~ changed h x.
Proof.
  intros passes m s h0 h1 h2 h x W NH DN O (i & v & N & N' & NS & NB) E R1 X R2 Q. eapply (unchanged passes m W NH DN s i v); eauto.
  intros o r I R. apply (NB o r); [apply slice_depends; assumption|exact R].
Qed.
Print Assumptions C124_unchanged.

(** ** Contents *)
Section Contents.
Context {content outside : Type} (w : meaning content outside) (pure : kind -> bool) (store : nat -> option content).
Lemma look_cons : forall n (x : content) e k, look ((n, x) :: e) k = if n =? k then Some x else look e k.
Proof. intros. unfold look. cbn. destruct (n =? k); reflexivity. Qed.
Lemma looks_agree : forall (e e' : cenv content) (f : value -> value) l xs,
  (forall v x, In v l -> look e (fst v) = Some x -> look e' (fst (f v)) = Some x) -> looks e l = Some xs -> looks e' (map f l) = Some xs.
Proof.
  intros e e' f. induction l as [|v l IH]; cbn; intros xs A H; [exact H|]. destruct (look e (fst v)) as [x|] eqn:L; [|discriminate]. cbn in H. destruct (looks e l) as [ys|] eqn:L'; [|discriminate]. cbn in H. injection H as <-.
  rewrite (A v x (or_introl eq_refl) L). cbn. rewrite (IH ys); [reflexivity|intros u y U; apply A; right; exact U|reflexivity].
Qed.
Lemma put_other : forall l (xs : list content) e e' n, put l xs e = Some e' -> ~ In n (map fst l) -> look e' n = look e n.
Proof.
  induction l as [|v l IH]; cbn; intros xs e e' n H N; destruct xs; try discriminate; [injection H as <-; reflexivity|].
  rewrite (IH _ _ _ _ H) by tauto. rewrite look_cons. destruct (Nat.eqb_spec (fst v) n); [tauto|reflexivity].
Qed.
(** Results put under other numbers *)
Lemma put_agree : forall (f : nat -> nat) l (xs : list content) e1 e1' e2 (S0 : nat -> Prop), (forall a b, f a = f b -> a = b) -> put l xs e1 = Some e1' ->
  (forall n x, S0 n -> ~ In n (map fst l) -> look e1 n = Some x -> look e2 (f n) = Some x) ->
  exists e2', put (map (fun v => (f (fst v), snd v)) l) xs e2 = Some e2' /\ (forall n x, S0 n -> look e1' n = Some x -> look e2' (f n) = Some x)
    /\ forall k, (forall n, f n <> k) -> look e2' k = look e2 k.
Proof.
  intros f. induction l as [|v l IH]; cbn; intros xs e1 e1' e2 S0 INJ H A; destruct xs as [|y xs]; try discriminate.
  - injection H as <-. exists e2. split; [reflexivity|]. split; [intros; apply A; auto|auto].
  - destruct (IH xs ((fst v, y) :: e1) e1' ((f (fst v), y) :: e2) S0 INJ H) as (e2' & P & Q & R).
    + intros n x HS N. rewrite !look_cons. destruct (Nat.eqb_spec (fst v) n) as [->|NE].
      * rewrite Nat.eqb_refl. auto.
      * destruct (Nat.eqb_spec (f (fst v)) (f n)) as [E|_]; [apply INJ in E; contradiction|]. intros L. apply A; [exact HS| |exact L]. intros [E|E]; contradiction.
    + exists e2'. split; [exact P|]. split; [exact Q|]. intros k K. rewrite (R _ K), look_cons. destruct (Nat.eqb_spec (f (fst v)) k) as [E|_]; [destruct (K _ E)|reflexivity].
Qed.
Lemma clone_run : forall base l needed e1 e1' g g' e2 g2,
  (forall o, In o l -> exists k, is o = Plain k /\ pure (is o) = true) -> eval w pure store l e1 g = Some (e1', g') ->
  (forall n x, In n (fst (backward l needed)) -> look e1 n = Some x -> look e2 (base + n) = Some x) ->
  exists e2', eval w pure store (map (clone base) (snd (backward l needed))) e2 g2 = Some (e2', g2)
    /\ (forall n x, In n needed -> look e1' n = Some x -> look e2' (base + n) = Some x) /\ forall k, k < base -> look e2' k = look e2 k.
Proof.
  intros base. induction l as [|o l IH]; intros needed e1 e1' g g' e2 g2 PL H A.
  - cbn in *. injection H as <- <-. exists e2. auto.
  - cbn [eval] in H. destruct (eval_op w pure store o e1 g) as [[e3 g3]|] eqn:EO; [|discriminate]. cbn [obind] in H. rewrite backward_cons in *.
    destruct (PL o (or_introl eq_refl)) as (k & K & PU). unfold eval_op in EO. rewrite K in *. rewrite PU in EO.
    destruct (looks e1 (operands o)) as [xs|] eqn:L; [|discriminate]. cbn [obind] in EO. destruct (compute w (Plain k) xs) as [ys|] eqn:C; [|discriminate]. cbn [obind] in EO.
    destruct (put (results o) ys e1) as [e4|] eqn:PT; [|discriminate]. cbn [obind] in EO. injection EO as -> <-.
    assert (PL' : forall o, In o l -> exists k, is o = Plain k /\ pure (is o) = true) by (intros o' I; apply PL; right; exact I).
    destruct (meets o (fst (backward l needed))) eqn:M.
    + cbn [fst snd map] in *. cbn [eval]. unfold eval_op. cbn [clone is operands results]. rewrite K, PU.
      rewrite (looks_agree e1 e2 (fun v => (base + fst v, snd v)) _ xs); [|intros v x IV LV; apply A; [apply in_or_app; left; apply in_map; exact IV|exact LV]|exact L]. cbn [obind]. rewrite C. cbn [obind].
      destruct (put_agree (fun n => base + n) (results o) ys e1 e3 e2 (fun n => In n (fst (backward l needed))) ltac:(cbn; intros; lia) PT) as (e2' & P & Q & R);
        [intros n x I _ LX; apply A; [apply in_or_app; right; exact I|exact LX]|].
      rewrite P. cbn [obind]. destruct (IH needed e3 e1' g g' e2' g2 PL' H Q) as (e5 & E5 & A5 & B5). exists e5. split; [exact E5|]. split; [exact A5|].
      intros j J. rewrite (B5 _ J). apply R. intros n. lia.
    + apply (IH needed e3 e1' g g' e2 g2 PL' H). intros n x I LX. apply A; [exact I|]. rewrite <- LX. symmetry. apply (put_other _ _ _ _ _ PT).
      intros IN. apply in_map_iff in IN. destruct IN as (r & E & IR). assert (T : meets o (fst (backward l needed)) = true); [|congruence]. apply meets_in. exists r. split; [exact IR|]. rewrite E. exact I.
Qed.

Context (init : list op) (slots : list nat) (values : list value) (safe : list nat) (width : nat) (e_init : cenv content) (g0 : outside).
Hypothesis init_pure : forall o, In o init -> exists k, is o = Plain k /\ pure (is o) = true.
Hypothesis init_run : eval w pure store init [] g0 = Some (e_init, g0).
Hypothesis store_is : forall s v, In s safe -> initial_value slots values s = Some v -> look e_init (fst v) = store s /\ store s <> None.
Definition below (o : op) : Prop := (forall v, In v (operands o) -> fst v < width) /\ (forall v, In v (results o) -> fst v < width).
Definition agree (e e' : cenv content) : Prop := forall n, n < width -> look e' n = look e n.

Lemma looks_same : forall e e' l, agree e e' -> (forall v, In v l -> fst v < width) -> looks e' l = looks e l.
Proof. intros e e'. induction l as [|v l IH]; cbn; intros A B; [reflexivity|]. rewrite A, IH by auto. reflexivity. Qed.
Lemma put_same : forall l xs e e' e1, agree e e' -> put l xs e = Some e1 -> exists e1', put l xs e' = Some e1' /\ agree e1 e1'.
Proof.
  induction l as [|v l IH]; cbn; intros xs e e' e1 A H; destruct xs as [|x xs]; try discriminate; [injection H as <-; eauto|].
  apply (IH xs ((fst v, x) :: e)); [|exact H]. intros n L. rewrite !look_cons, A by exact L. reflexivity.
Qed.
Lemma op_same : forall o e e' g e1 g1, below o -> agree e e' -> eval_op w pure store o e g = Some (e1, g1) -> exists e1', eval_op w pure store o e' g = Some (e1', g1) /\ agree e1 e1'.
Proof.
  intros o e e' g e1 g1 [B1 B2] A H. unfold eval_op in *. rewrite (looks_same e e' (operands o) A B1).
  destruct (is o) eqn:K;
    try (destruct (looks e (operands o)) as [xs|]; [|discriminate]; cbn [obind] in *; destruct (pure _);
      [destruct (compute w _ xs) as [ys|]; [|discriminate]; cbn [obind] in *; destruct (put (results o) ys e) as [e2|] eqn:PT; [|discriminate]; cbn [obind] in H; injection H as <- <-; destruct (put_same _ _ _ _ _ A PT) as (e2' & P & Q); rewrite P; cbn [obind]; eauto
      |destruct (effect w _ xs g) as [[ys g2]|]; [|discriminate]; cbn [obind] in *; destruct (put (results o) ys e) as [e2|] eqn:PT; [|discriminate]; cbn [obind] in H; injection H as <- <-; destruct (put_same _ _ _ _ _ A PT) as (e2' & P & Q); rewrite P; cbn [obind]; eauto]).
  - destruct (store s) as [x|].
    + destruct (put (results o) [x] e) as [e2|] eqn:PT; [|discriminate]; cbn [obind] in *; injection H as <- <-; destruct (put_same _ _ _ _ _ A PT) as (e2' & P & Q); rewrite P; cbn [obind]; eauto.
    + destruct (effect w (GetSlot s) [] g) as [[ys g2]|]; [|discriminate]; cbn [obind] in *; destruct (put (results o) ys e) as [e2|] eqn:PT; [|discriminate]; cbn [obind] in H; injection H as <- <-; destruct (put_same _ _ _ _ _ A PT) as (e2' & P & Q); rewrite P; cbn [obind]; eauto.
  - destruct (looks e (operands o)) as [xs|]; [|discriminate]; cbn [obind] in *; destruct (put (results o) xs e) as [e2|] eqn:PT; [|discriminate]; cbn [obind] in H; injection H as <- <-; destruct (put_same _ _ _ _ _ A PT) as (e2' & P & Q); rewrite P; cbn [obind]; eauto.
Qed.
Lemma eval_app : forall l r e g, eval w pure store (l ++ r) e g = do (e, g) <- eval w pure store l e g; eval w pure store r e g.
Proof. induction l as [|o l IH]; cbn; intros; [reflexivity|]. destruct (eval_op w pure store o e g) as [[e1 g1]|]; cbn; [apply IH|reflexivity]. Qed.
Lemma rewrite_get_run : forall base o l e e' g e1 g1, width <= base -> below o -> agree e e' -> rewrite_get safe init slots values base o = Some l ->
  eval_op w pure store o e g = Some (e1, g1) -> exists e1', eval w pure store l e' g = Some (e1', g1) /\ agree e1 e1'.
Proof.
  intros base o l e e' g e1 g1 LE B A RW H. unfold rewrite_get in RW.
  assert (SAME : l = [o] -> exists e1', eval w pure store l e' g = Some (e1', g1) /\ agree e1 e1').
  { intros ->. destruct (op_same _ _ _ _ _ _ B A H) as (e1' & E & Q). exists e1'. cbn. rewrite E. auto. }
  destruct (is o) eqn:K; try (apply SAME; injection RW as <-; reflexivity).
  destruct (mem s safe) eqn:M; [|apply SAME; injection RW as <-; reflexivity]. apply mem_in in M.
  destruct (initial_value slots values s) as [v|] eqn:IV; [|discriminate]. cbn [obind] in RW. injection RW as <-.
  destruct (store_is s v M IV) as [SI SN]. destruct (store s) as [x|] eqn:ST; [|congruence].
  unfold eval_op in H. rewrite K, ST in H. destruct (put (results o) [x] e) as [e2|] eqn:PT; [|discriminate]. cbn [obind] in H. injection H as <- <-.
  destruct (clone_run base init [fst v] [] e_init g0 g0 e' g init_pure init_run) as (e3 & E3 & A3 & B3); [intros n y _ Q; discriminate|].
  unfold slice. rewrite eval_app, E3. cbn [obind eval]. unfold eval_op. cbn [is operands results looks fst]. rewrite (A3 (fst v) x (or_introl eq_refl) SI). cbn [obind].
  destruct (put_same (results o) [x] e e3 e2) as (e4 & P & Q); [intros n L; rewrite B3 by lia; auto|exact PT|]. rewrite P. cbn [obind]. exists e4. auto.
Qed.
Lemma rewrite_gets_run : forall l base l' e e' g e1 g1, width <= base -> Forall below l -> agree e e' -> rewrite_gets safe init slots values width base l = Some l' ->
  eval w pure store l e g = Some (e1, g1) -> exists e1', eval w pure store l' e' g = Some (e1', g1) /\ agree e1 e1'.
Proof.
  induction l as [|o l IH]; cbn [rewrite_gets eval]; intros base l' e e' g e1 g1 LE B A RW H.
  - injection RW as <-. injection H as <- <-. exists e'. cbn. auto.
  - destruct (rewrite_get safe init slots values base o) as [la|] eqn:RA; [|discriminate]. cbn [obind] in RW. destruct (rewrite_gets safe init slots values width (base + width) l) as [lb|] eqn:RB; [|discriminate]. cbn [obind] in RW. injection RW as <-.
    destruct (eval_op w pure store o e g) as [[e2 g2]|] eqn:EO; [|discriminate]. cbn [obind] in H. inversion B as [|o0 l0 B1 B2]; subst.
    destruct (rewrite_get_run base o la e e' g e2 g2 LE B1 A RA EO) as (e3 & E3 & A3). rewrite eval_app, E3. cbn [obind]. exact (IH (base + width) lb e2 e3 g2 e1 g1 ltac:(lia) B2 A3 RB H).
Qed.
End Contents.

(** When the chosen slots keep the contents of their initial values, the functions compute what they computed *)
Theorem C124_same : forall content outside (w : meaning content outside) pure store a width m m' safe e_init g0,
  inline_slots a width m = Some m' -> chosen_slots a m = Some safe ->
  (forall o, In o (initializer m) -> exists k, is o = Plain k /\ pure (is o) = true) -> eval w pure store (initializer m) [] g0 = Some (e_init, g0) ->
  (forall s v, In s safe -> initial_value (init_slots m) (init_values m) s = Some v -> look e_init (fst v) = store s /\ store s <> None) ->
  Forall (below width) (rest m) ->
  forall e g e1 g1, eval w pure store (rest m) e g = Some (e1, g1) -> exists e1', eval w pure store (rest m') e g = Some (e1', g1) /\ forall n, n < width -> look e1' n = look e1 n.
Proof.
  intros content outside w pure store a width m m' safe e_init g0 H C IP IR SI B e g e1 g1 EV. unfold inline_slots in H. unfold chosen_slots in C.
  destruct (analyse a (program m)) as [st|]; [|discriminate]. cbn [obind] in H, C. injection C as <-.
  destruct (rewrite_gets _ _ _ _ _ _ _) as [body|] eqn:RW; [|discriminate]. cbn [obind] in H. destruct (kept_slots _ _ _) as [ks kv]. injection H as <-. cbn [rest].
  exact (rewrite_gets_run w pure store (initializer m) (init_slots m) (init_values m) _ width e_init g0 IP IR SI (rest m) width body e e g e1 g1 (le_n _) B (fun n _ => eq_refl) RW EV).
Qed.
Print Assumptions C124_same.

(** What is left: declarations and initial values of the other slots, no read of a chosen slot *)
Theorem C124_left : forall passes a width m m' safe, well_formed passes m -> inline_slots a width m = Some m' -> chosen_slots a m = Some safe ->
  initializer m' = initializer m
  /\ (forall o, In o (decls m') <-> In o (decls m) /\ forall s b, is o = Slot s b -> ~ In s safe)
  /\ List.length (init_slots m') = List.length (init_values m')
  /\ (forall s v, initial_value (init_slots m') (init_values m') s = Some v <-> initial_value (init_slots m) (init_values m) s = Some v /\ ~ In s safe)
  /\ (forall o s, In o (rest m') -> is o = GetSlot s -> ~ In s safe).
Proof.
  intros passes a width m m' safe W H C. unfold inline_slots in H. unfold chosen_slots in C.
  destruct (analyse a (program m)) as [st|]; [|discriminate]. cbn [obind] in H, C. injection C as C. rewrite C in H.
  destruct (rewrite_gets _ _ _ _ _ _ _) as [body|] eqn:RW; [|discriminate]. cbn [obind] in H. destruct (kept_slots _ _ _) as [ks kv] eqn:KS. injection H as <-. cbn [initializer decls init_slots init_values rest].
  split; [reflexivity|]. split; [|split; [|split]].
  - intros o. rewrite filter_In. split; intros [A B]; (split; [exact A|]).
    + intros s b K. rewrite K in B. apply negb_true_iff, mem_out in B. exact B.
    + destruct (is o) eqn:K; try reflexivity. apply negb_true_iff, mem_out. eapply B. reflexivity.
  - clear RW C. revert ks kv KS. generalize (init_values m). induction (init_slots m) as [|s l IH]; intros values ks kv KS; cbn in KS; [injection KS as <- <-; reflexivity|].
    destruct values as [|v values]; [injection KS as <- <-; reflexivity|]. destruct (kept_slots safe l values) as [a1 b1] eqn:E. specialize (IH _ _ _ E). destruct (mem s safe); injection KS as <- <-; cbn; congruence.
  - pose proof (initialized_once _ _ W) as ND. clear RW C. revert ks kv KS ND. generalize (init_values m). induction (init_slots m) as [|s1 l IH]; intros values ks kv KS ND s v; cbn in KS.
    + injection KS as <- <-. cbn. split; [discriminate|intros [Q _]; exact Q].
    + destruct values as [|v1 values]; [injection KS as <- <-; cbn; split; [discriminate|intros [Q _]; exact Q]|]. destruct (kept_slots safe l values) as [a1 b1] eqn:E. inversion ND as [|s0 l0 N1 N2]; subst s0 l0.
      specialize (IH _ _ _ E N2 s v). unfold initial_value in *. cbn [combine find fst]. destruct (mem s1 safe) eqn:M; injection KS as <- <-.
      * destruct (Nat.eqb_spec s1 s) as [->|NE]; [|exact IH]. apply mem_in in M. rewrite IH. split; intros [Q1 Q2]; contradiction.
      * cbn [combine find fst]. destruct (Nat.eqb_spec s1 s) as [->|NE]; [|exact IH]. apply mem_out in M. cbn. tauto.
  - revert body RW. assert (G : forall l base body, (forall o, In o l -> True) -> rewrite_gets safe (initializer m) (init_slots m) (init_values m) width base l = Some body -> forall o s, In o body -> is o = GetSlot s -> ~ In s safe).
    { induction l as [|o1 l IH]; cbn [rewrite_gets]; intros base body T RW o s I K; [injection RW as <-; destruct I|].
      destruct (rewrite_get safe (initializer m) (init_slots m) (init_values m) base o1) as [la|] eqn:RA; [|discriminate]. cbn [obind] in RW. destruct (rewrite_gets _ _ _ _ _ (base + width) l) as [lb|] eqn:RB; [|discriminate]. cbn [obind] in RW. injection RW as <-.
      apply in_app_or in I. destruct I as [I|I]; [|eapply IH; eauto]. unfold rewrite_get in RA.
      assert (ONE : la = [o1] -> (forall s, is o1 = GetSlot s -> ~ In s safe) -> ~ In s safe) by (intros -> Q; destruct I as [<-|[]]; exact (Q _ K)).
      destruct (is o1) eqn:K1; try (apply ONE; [injection RA as <-; reflexivity|intros s' Q; discriminate]).
      destruct (mem s0 safe) eqn:M; [|apply ONE; [injection RA as <-; reflexivity|intros s' Q; injection Q as <-; apply mem_out; exact M]].
      destruct (initial_value _ _ s0) as [v|]; [|discriminate]. cbn [obind] in RA. injection RA as <-. apply in_app_or in I. destruct I as [I|[<-|[]]]; [|discriminate].
      apply in_map_iff in I. destruct I as (o2 & <- & I2). apply (proj2 (backward_sub _ _)) in I2. destruct (plain_init _ _ W _ I2) as [(k & K2) _]. cbn in K. congruence. }
    intros body RW. exact (G _ _ _ (fun _ _ => Logic.I) RW).
Qed.
Print Assumptions C124_left.
(** The pass succeeds on well-formed modules *)
Theorem C124_succeeds : forall passes a width m, well_formed passes m -> exists m', inline_slots a width m = Some m'.
Proof.
  intros passes a width m W. destruct (C124_analysis a (program m) (module_first _ _ W) (one_type _ _ W)) as (st & A & _ & _). unfold inline_slots. rewrite A. cbn [obind].
  set (safe := chosen st (initializer m) (init_slots m) (init_values m)).
  assert (IV : forall s, In s safe -> exists v, initial_value (init_slots m) (init_values m) s = Some v).
  { intros s I. apply chosen_in in I. destruct I as (i & v & N & N' & _). unfold initial_value. revert i N N'. generalize (init_values m). induction (init_slots m) as [|s1 l IH]; intros values i N N'; [destruct i; discriminate|].
    destruct values as [|v1 values]; [destruct i; discriminate|]. cbn [combine find fst]. destruct (Nat.eqb_spec s1 s); [cbn; eauto|]. destruct i; cbn in N, N'; [congruence|]. eapply IH; eauto. }
  assert (T : forall l base, exists body, rewrite_gets safe (initializer m) (init_slots m) (init_values m) width base l = Some body).
  { induction l as [|o l IH]; intros base; cbn [rewrite_gets]; [eauto|]. assert (X : exists la, rewrite_get safe (initializer m) (init_slots m) (init_values m) base o = Some la).
    { unfold rewrite_get. destruct (is o); eauto. destruct (mem s safe) eqn:M; [|eauto]. apply mem_in in M. destruct (IV _ M) as [v V]. rewrite V. cbn. eauto. }
    destruct X as [la X]. rewrite X. cbn [obind]. destruct (IH (base + width)) as [lb Y]. rewrite Y. cbn. eauto. }
  destruct (T (rest m) width) as [body B]. rewrite B. cbn [obind]. destruct (kept_slots _ _ _). eauto.
Qed.
Print Assumptions C124_succeeds.

(** ** Cases *)
Definition plain (k : nat) (args rs : list value) : op := {| is := Plain k; value_semantics := false; effect_free := false; operands := args; results := rs |}.
Definition slot_op (s : nat) (b : bool) : op := {| is := Slot s b; value_semantics := false; effect_free := false; operands := []; results := [] |}.
Definition get_op (s : nat) (r : value) : op := {| is := GetSlot s; value_semantics := false; effect_free := false; operands := []; results := [r] |}.
Definition set_op (s : nat) (v : value) : op := {| is := SetSlot s; value_semantics := false; effect_free := false; operands := [v]; results := [] |}.
Definition free_op (k : nat) (args rs : list value) : op := {| is := Plain k; value_semantics := false; effect_free := true; operands := args; results := rs |}.
Definition t (n : nat) : value := (n, TTensor).
(** A list of a tensor and the tensor itself; the functions look at both; or they change the tensor *)
Definition sample (use : op) : module :=
  {| decls := [slot_op 0 false; slot_op 1 false]; initializer := [plain 0 [] [t 0]; free_op 1 [t 0] [(1, TOther 0)]]; init_slots := [0; 1]; init_values := [t 0; (1, TOther 0)];
     rest := [get_op 1 (2, TOther 0); free_op 2 [(2, TOther 0)] [t 3]; get_op 0 (t 4); use] |}.
Definition reads : op := {| is := Plain 3; value_semantics := true; effect_free := false; operands := [t 3; t 4]; results := [t 5] |}.
Definition writes : op := plain 4 [t 4] [t 5].
Example C124_nonvacuous :
  chosen_slots true (sample reads) = Some [0; 1] /\ chosen_slots true (sample writes) = Some []
  /\ option_map (fun m => (decls m, init_slots m, init_values m, rest m)) (inline_slots true 6 (sample reads)) = Some ([], [], [],
     [plain 0 [] [t 6]; free_op 1 [t 6] [(7, TOther 0)]; {| is := Adjust; value_semantics := false; effect_free := true; operands := [(7, TOther 0)]; results := [(2, TOther 0)] |};
      free_op 2 [(2, TOther 0)] [t 3]; plain 0 [] [t 18]; {| is := Adjust; value_semantics := false; effect_free := true; operands := [t 18]; results := [t 4] |}; reads]).
Proof. repeat split; reflexivity. Qed.

(** A slot that is set before it is declared (in the text of the module): the analysis ends in an assertion, or without assertions the slot is taken to be safe and replaced *)
Definition late : list op := [set_op 0 (5, TInt); slot_op 0 false; plain 0 [] [(0, TInt)]; terminator [0] [(0, TInt)]].
Theorem C124_order_refuted : analyse true late = None /\ (exists st, analyse false late = Some st /\ chosen st [plain 0 [] [(0, TInt)]] [0] [(0, TInt)] = [0]) /\ bad_slot late 0.
Proof.
  split; [reflexivity|]. split; [eexists; split; reflexivity|]. eapply (is_set late (set_op 0 (5, TInt))); [left; reflexivity|reflexivity].
Qed.
Print Assumptions C124_order_refuted.

(** A tensor of a slot that the branch of an If yields, where the result of the If is changed: prim.If.yield is free of effects and has no results, so the slot is chosen *)
Definition yield_op (v : value) : op := free_op 5 [v] [].
Definition yields (o : op) : Prop := exists v, o = yield_op v.
Definition branch : module :=
  {| decls := [slot_op 0 false]; initializer := [plain 0 [] [t 0]]; init_slots := [0]; init_values := [t 0];
     rest := [get_op 0 (t 1); yield_op (t 1); {| is := IfOp; value_semantics := false; effect_free := false; operands := [(9, TBool)]; results := [t 2] |}; plain 4 [t 2] [t 3]] |}.
Definition heap_of (al : bool) (vals : list nat) (sl pa ch : bool) : heap :=
  {| alive := fun x => x = 0 /\ al = true; reach := fun n x => x = 0 /\ al = true /\ In n vals; slot_reach := fun s x => s = 0 /\ x = 0 /\ al = true /\ sl = true; passed := fun x => x = 0 /\ pa = true; changed := fun x => x = 0 /\ ch = true |}.
Theorem C124_yield_refuted : chosen_slots true branch = Some [0] /\ well_formed yields branch /\ ordered (initializer branch)
  /\ exists h0 h1 h2 h x, empty h0 /\ runs_in_order yields (initializer branch) h0 h1 /\ executes yields (terminator (init_slots branch) (init_values branch)) h1 h2 /\ runs yields (rest branch) h2 h
     /\ slot_reach h 0 x /\ changed h x.
Proof.
  split; [reflexivity|]. split; [|split].
  - constructor.
    + intros o [<-|[]]. split; [eexists; reflexivity|]. intros [v Q]. discriminate.
    + intros o I. split; [intros slots|intros s b]; cbn in I; decompose [or] I; subst; try contradiction; discriminate.
    + intros o [<-|[]]. split; [eauto|reflexivity]. exists 0, false. reflexivity.
    + cbn. constructor; [intros []|constructor].
    + cbn. constructor; [intros []|constructor].
    + reflexivity.
    + intros o s I K. cbn in I. decompose [or] I; subst; try contradiction; discriminate.
    + intros o o' v u I I' V U E. cbn in I, I'. decompose [or] I; decompose [or] I'; subst; cbn in V, U; try contradiction; destruct V as [<-|[]]; destruct U as [<-|[]]; cbn in E; try discriminate; reflexivity.
  - intros pre o post E v r o' V. destruct pre as [|x pre]; cbn in E; [injection E as <- <-; destruct V|]. injection E as _ E. destruct pre; discriminate.
  - exists (heap_of false [] false false false), (heap_of true [0] false false false), (heap_of true [0] true false false), (heap_of true [0; 1; 2; 3] true true true), 0.
    split; [repeat split; cbn; intuition discriminate|]. split.
    { econstructor; [|constructor]. constructor; cbn.
      - intuition discriminate.
      - intuition.
      - intuition.
      - intros v x [<-|[]] (-> & _ & _). split; [exact Logic.I|]. left. unfold fresh. cbn. intuition discriminate.
      - intros n x N (-> & _ & [<-|[]]). destruct (N (t 0) (or_introl eq_refl) eq_refl).
      - intuition discriminate.
      - intuition discriminate.
      - intuition discriminate. }
    split.
    { constructor; cbn.
      - auto.
      - intuition.
      - intuition.
      - intros v x [].
      - auto.
      - intros s x (-> & -> & _ & _). right. left. exists [0], 0, (t 0). repeat split; auto.
      - intuition discriminate.
      - intuition discriminate. }
    split.
    { refine (runs_op yields _ _ (heap_of true [0; 1; 2] true true false) _ (plain 4 [t 2] [t 3]) _ _ _).
      - refine (runs_op yields _ _ (heap_of true [0; 1] true true false) _ {| is := IfOp; value_semantics := false; effect_free := false; operands := [(9, TBool)]; results := [t 2] |} _ _ _).
        + refine (runs_op yields _ _ (heap_of true [0; 1] true false false) _ (yield_op (t 1)) _ _ _).
          * refine (runs_op yields _ _ (heap_of true [0] true false false) _ (get_op 0 (t 1)) _ _ _); [apply runs_none|cbn; auto|].
            constructor; cbn.
            -- auto.
            -- intuition.
            -- intuition.
            -- intros v x [<-|[]] (-> & _ & _). split; [exact Logic.I|]. right. right. left. exists 0. auto.
            -- intros n x N (-> & _ & [Q|[Q|[]]]); [left; auto|]. destruct (N (t 1) (or_introl eq_refl) Q).
            -- auto.
            -- intuition discriminate.
            -- intuition discriminate.
          * cbn; auto.
          * constructor; cbn.
            -- auto.
            -- intuition.
            -- intuition.
            -- intros v x [].
            -- auto.
            -- auto.
            -- intros x (-> & _). right. split; [eexists; reflexivity|]. exists (t 1). unfold t. cbn. repeat split; auto.
            -- intuition discriminate.
        + cbn; auto.
        + constructor; cbn.
          -- auto.
          -- intuition.
          -- intuition.
          -- intros v x [<-|[]] (-> & _ & _). split; [exact Logic.I|]. right. right. right. split; [repeat split; discriminate|auto].
          -- intros n x N (-> & _ & [Q|[Q|[Q|[]]]]); [left; auto|left; auto|]. destruct (N (t 2) (or_introl eq_refl) Q).
          -- auto.
          -- auto.
          -- intuition discriminate.
      - cbn; auto.
      - assert (G : gets (heap_of true [0; 1; 2] true true false) (plain 4 [t 2] [t 3]) 0) by (exists 0, (t 2); cbn; repeat split; auto; intros [Q _]; discriminate).
        assert (MU : mutating (plain 4 [t 2] [t 3])) by (repeat split; discriminate).
        constructor; cbn.
        -- auto.
        -- intuition.
        -- intuition.
        -- intros v x [<-|[]] (-> & _ & _). split; [exact Logic.I|]. right. left. exact G.
        -- intros n x N (-> & _ & [Q|[Q|[Q|[Q|[]]]]]); [left; auto 6|left; auto 6|left; auto 6|]. destruct (N (t 3) (or_introl eq_refl) Q).
        -- auto.
        -- auto.
        -- intros x (-> & _). right. split; [exact MU|exact G]. }
    cbn. auto.
Qed.
Print Assumptions C124_yield_refuted.
