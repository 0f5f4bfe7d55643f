(** No object that can be reached from a chosen slot is ever changed. *)
From Coq Require Import Bool PeanoNat Lia List.
From Verif Require Import Prelude InlineSlotsModel InlineSlotsSpec InlineSlotsProofs.
Import ListNotations.
Open Scope nat_scope.

Section Heap.
Context (passes : op -> Prop) (m : module).
Hypothesis wf : well_formed passes m.
Hypothesis nh : nothing_handed_on passes m.
Hypothesis dn : declares_nothing_passed passes m.
Notation p := (program m).

Definition made (n : nat) : Prop := exists o v, In o p /\ In v (results o) /\ fst v = n /\ object v /\ ~ bad_value p n.
Record intact (h : heap) (x : nat) : Prop := {
  in_alive : alive h x; in_values : forall n, reach h n x -> made n; in_slots : forall s, slot_reach h s x -> ~ bad_slot p s; in_passed : ~ passed h x; in_unchanged : ~ changed h x }.

Lemma use_bad : forall h x o i u, intact h x -> In o p -> nth_error (operands o) i = Some u -> handed o i -> reach h (fst u) x -> bad_op p o ->
  (forall slots, is o = Initialize slots -> forall s, nth_error slots i = Some s -> bad_slot p s) -> False.
Proof.
  intros h x o i u K IO N HA R BO SL. destruct (in_values _ _ K _ R) as (o0 & v & I0 & IV & E & OB & NB). apply NB. rewrite <- E.
  eapply (bad_use p o0 v o i); eauto.
Qed.
Lemma no_change : forall h x o, intact h x -> In o p -> mutating o -> gets h o x -> False.
Proof.
  intros h x o K IO (_ & EF & NI) (i & u & N & HA & R). eapply (use_bad h x o i u); eauto; [apply changes; exact EF|]. intros slots E. destruct (NI _ E).
Qed.
Lemma in_program : forall o, In o p <-> In o (decls m) \/ In o (initializer m) \/ o = terminator (init_slots m) (init_values m) \/ In o (rest m).
Proof. intros o. unfold program. rewrite !in_app_iff. cbn. intuition congruence. Qed.
Lemma initialize_is : forall o slots, In o p -> is o = Initialize slots -> o = terminator (init_slots m) (init_values m).
Proof.
  intros o slots I E. apply in_program in I. destruct I as [I|[I|[I|I]]]; [| |exact I|].
  - destruct (declarations _ _ wf _ I) as [(s & b & K) _]. congruence.
  - destruct (plain_init _ _ wf _ I) as [(k & K) _]. congruence.
  - destruct (plain_rest _ _ wf _ I) as [K _]. destruct (K _ E).
Qed.
Lemma set_mutating : forall o s, In o p -> is o = SetSlot s -> mutating o.
Proof.
  intros o s I E. apply in_program in I. destruct I as [I|[I|[I|I]]].
  - destruct (declarations _ _ wf _ I) as [(s' & b & K) _]. congruence.
  - destruct (plain_init _ _ wf _ I) as [(k & K) _]. congruence.
  - subst o. discriminate.
  - destruct (sets_change _ _ wf _ _ I E) as [A B]. repeat split; auto. intros slots. congruence.
Qed.
Lemma passes_safe : forall h x o u, intact h x -> In o p -> passes o -> In u (operands o) -> reach h (fst u) x -> False.
Proof.
  intros h x o u K IO PO IU R. apply in_program in IO. destruct IO as [IO|[IO|[IO|IO]]].
  - exact (dn o (or_introl IO) PO).
  - exact (proj2 (plain_init _ _ wf _ IO) PO).
  - apply (dn o); [right; subst o; eexists; reflexivity|exact PO].
  - destruct (nh o IO PO) as [[MU NI]|NO].
    + destruct (In_nth_error _ _ IU) as [i N]. apply (no_change h x o K); [apply in_program; auto|exact MU|]. exists i, u. split; [exact N|]. split; [|exact R]. split; [exact (proj1 MU)|tauto].
    + destruct (in_values _ _ K _ R) as (o0 & v & I0 & IV & E & OB & _). exact (NO u o0 v IU I0 IV E OB).
Qed.
Lemma executes_intact : forall o h h' x, In o p -> executes passes o h h' -> intact h x -> intact h' x.
Proof.
  intros o h h' x IO X K. constructor.
  - exact (stays_alive _ _ _ _ X _ (in_alive _ _ K)).
  - intros n R. destruct (in_dec Nat.eq_dec n (map fst (results o))) as [IR|NR].
    + apply in_map_iff in IR. destruct IR as (v & <- & IV). destruct (results_reach _ _ _ _ X v x IV R) as [OB C]. exists o, v. split; [exact IO|]. split; [exact IV|]. split; [reflexivity|]. split; [exact OB|]. intros BAD.
      destruct C as [C|[(i & u & N & HA & R')|[(s & E & C)|[_ C]]]].
      * exact (C (in_alive _ _ K)).
      * eapply (use_bad h x o i u); eauto; [exact (bad_result p o v IV BAD)|]. intros slots E. rewrite (initialize_is _ _ IO E) in IV. destruct IV.
      * apply (in_slots _ _ K _ C). eapply bad_read; eauto.
      * exact (in_passed _ _ K C).
    + destruct (others_reach _ _ _ _ X n x) as [C|(MU & C & y & R1 & R2)]; [intros v IV E; apply NR; apply in_map_iff; eauto|exact R|exact (in_values _ _ K _ C)|].
      exfalso. destruct C as [C|[C|C]]; [exact (no_change _ _ _ K IO MU C)|exact (C (in_alive _ _ K))|exact (in_passed _ _ K C)].
  - intros s R BAD. destruct (slots_reach _ _ _ _ X s x R) as [C|[(slots & i & u & E & N & N' & R')|[[E C]|(MU & C & y & R1 & R2)]]].
    + exact (in_slots _ _ K _ C BAD).
    + pose proof (initialize_is _ _ IO E) as T. eapply (use_bad h x o i u); eauto.
      * split; [rewrite T; reflexivity|]. intros [Q _]. congruence.
      * apply changes. rewrite T. reflexivity.
      * intros slots' E' s' N2. rewrite E in E'. injection E' as <-. rewrite N in N2. injection N2 as <-. exact BAD.
    + exact (no_change _ _ _ K IO (set_mutating _ _ IO E) C).
    + destruct C as [C|[C|C]]; [exact (no_change _ _ _ K IO MU C)|exact (C (in_alive _ _ K))|exact (in_passed _ _ K C)].
  - intros C. destruct (passes_on _ _ _ _ X x C) as [C'|(PO & u & IU & R)]; [exact (in_passed _ _ K C')|]. exact (passes_safe _ _ _ _ K IO PO IU R).
  - intros C. destruct (changes_only _ _ _ _ X x C) as [C'|[MU G]]; [exact (in_unchanged _ _ K C')|]. exact (no_change _ _ _ K IO MU G).
Qed.
Lemma enters_intact : forall o params h h' x, In o p -> enters o params h h' -> intact h x -> intact h' x.
Proof.
  intros o params h h' x IO X K. constructor.
  - apply (enter_alive _ _ _ _ X). exact (in_alive _ _ K).
  - intros n R. destruct (in_dec Nat.eq_dec n params) as [IN|NI].
    + destruct (enter_params _ _ _ _ X n x IN R) as [MU G]. destruct (no_change _ _ _ K IO MU G).
    + apply (enter_others _ _ _ _ X n x NI) in R. exact (in_values _ _ K _ R).
  - intros s R. apply (enter_slots _ _ _ _ X) in R. exact (in_slots _ _ K _ R).
  - intros C. apply (enter_passed _ _ _ _ X) in C. exact (in_passed _ _ K C).
  - intros C. apply (enter_changed _ _ _ _ X) in C. exact (in_unchanged _ _ K C).
Qed.

(** ** The initializer *)
Record tidy (h : heap) : Prop := { t_reach : forall n x, reach h n x -> alive h x; t_slot : forall s x, ~ slot_reach h s x; t_passed : forall x, ~ passed h x; t_changed : forall x, changed h x -> alive h x }.
Definition clean (h : heap) (n : nat) : Prop := forall x, reach h n x -> intact h x.
Lemma tidy_step : forall o h h', In o (initializer m) -> executes passes o h h' -> tidy h -> tidy h'.
Proof.
  intros o h h' IO X [T1 T2 T3 T4]. destruct (plain_init _ _ wf _ IO) as [(k & K) NP]. constructor.
  - exact (reached_alive _ _ _ _ X).
  - intros s x R. destruct (slots_reach _ _ _ _ X s x R) as [C|[(slots & i & u & E & _)|[[E _]|(_ & _ & y & R1 & _)]]]; [exact (T2 _ _ C)|congruence|congruence|exact (T2 _ _ R1)].
  - intros x C. destruct (passes_on _ _ _ _ X x C) as [C'|(PO & _)]; [exact (T3 _ C')|exact (NP PO)].
  - intros x C. apply (stays_alive _ _ _ _ X). destruct (changes_only _ _ _ _ X x C) as [C'|[_ (i & u & _ & _ & R)]]; [exact (T4 _ C')|exact (T1 _ _ R)].
Qed.
Lemma backward_cons : forall o l needed, backward (o :: l) needed =
  (if meets o (fst (backward l needed)) then (map fst (operands o) ++ fst (backward l needed), o :: snd (backward l needed)) else backward l needed).
Proof. intros o l needed. unfold backward. cbn. destruct (fold_right _ _ l) as [n acc]. cbn. reflexivity. Qed.
Lemma meets_in : forall o needed, meets o needed = true <-> exists r, In r (results o) /\ In (fst r) needed.
Proof. intros o needed. unfold meets. rewrite existsb_exists. split; intros (r & A & B); exists r; (split; [exact A|]); apply mem_in; exact B. Qed.

Lemma in_init : forall o, In o (initializer m) -> In o p.
Proof. intros o I. apply in_program. auto. Qed.
Lemma clean_other : forall o h h' n, In o (initializer m) -> executes passes o h h' -> tidy h -> clean h n -> (forall v, In v (results o) -> fst v <> n) -> clean h' n.
Proof.
  intros o h h' n IO X T C NR x R. destruct (others_reach _ _ _ _ X n x NR R) as [R'|(MU & _ & y & R1 & R2)].
  - exact (executes_intact _ _ _ _ (in_init _ IO) X (C _ R')).
  - destruct (no_change _ _ _ (C _ R1) (in_init _ IO) MU R2).
Qed.
Lemma clean_result : forall o h h' v, In o (initializer m) -> executes passes o h h' -> tidy h -> (forall u, In u (operands o) -> clean h (fst u)) -> (forall r, In r (results o) -> ~ bad_value p (fst r)) ->
  In v (results o) -> clean h' (fst v).
Proof.
  intros o h h' v IO X T CO NB IV x R. destruct (plain_init _ _ wf _ IO) as [(k & K) NP]. destruct (results_reach _ _ _ _ X v x IV R) as [OB C].
  assert (NG : forall y, gets h o y -> mutating o -> False).
  { intros y G MU. destruct G as (i & u & N & HA & R'). pose proof (CO u (nth_error_In _ _ N) y R') as IY. apply (no_change h y o IY (in_init _ IO) MU). exists i, u. auto. }
  destruct C as [C|[(i & u & N & HA & R')|[(s & E & _)|[_ C]]]].
  - constructor.
    + exact (reached_alive _ _ _ _ X _ _ R).
    + intros n R2. destruct (in_dec Nat.eq_dec n (map fst (results o))) as [IR|NR].
      * apply in_map_iff in IR. destruct IR as (r & <- & IR). exists o, r. split; [exact (in_init _ IO)|]. split; [exact IR|]. split; [reflexivity|]. split; [exact (proj1 (results_reach _ _ _ _ X r x IR R2))|exact (NB _ IR)].
      * destruct (others_reach _ _ _ _ X n x) as [R3|(MU & _ & y & _ & G)]; [intros u IU E; apply NR; apply in_map_iff; eauto|exact R2| |destruct (NG y G MU)].
        destruct (C (t_reach _ T _ _ R3)).
    + intros s R2. destruct (t_slot _ (tidy_step _ _ _ IO X T) _ _ R2).
    + exact (t_passed _ (tidy_step _ _ _ IO X T) x).
    + intros Q. destruct (changes_only _ _ _ _ X x Q) as [Q'|[MU G]]; [exact (C (t_changed _ T _ Q'))|exact (NG _ G MU)].
  - exact (executes_intact _ _ _ _ (in_init _ IO) X (CO u (nth_error_In _ _ N) x R')).
  - congruence.
  - destruct (t_passed _ T _ C).
Qed.
Lemma initializer_clean : forall l needed h h', incl l (initializer m) -> runs_in_order passes l h h' -> tidy h ->
  (forall n, In n (fst (backward l needed)) -> clean h n) ->
  (forall o r, In o (snd (backward l needed)) -> In r (results o) -> ~ bad_value p (fst r)) ->
  tidy h' /\ forall n, In n needed -> clean h' n.
Proof.
  induction l as [|o l IH]; intros needed h h' IN RU T CL NB; inversion RU as [|o1 l1 h1 h2 h3 X RU']; subst.
  - split; [exact T|]. intros n I. apply CL. exact I.
  - rewrite backward_cons in CL, NB. assert (IO : In o (initializer m)) by (apply IN; left; reflexivity).
    apply (IH needed h2 h'); [intros u U; apply IN; right; exact U|exact RU'|exact (tidy_step _ _ _ IO X T)| |].
    + intros n I. destruct (in_dec Nat.eq_dec n (map fst (results o))) as [IR|NR].
      * apply in_map_iff in IR. destruct IR as (v & <- & IV).
        assert (M : meets o (fst (backward l needed)) = true) by (apply meets_in; eauto). rewrite M in CL, NB. cbn in CL, NB.
        apply (clean_result o h h2 v IO X T); [|intros r IR; apply (NB o); auto|exact IV]. intros u IU. apply CL. apply in_or_app. left. apply in_map. exact IU.
      * apply (clean_other o h h2 n IO X T); [|intros v IV E; apply NR; apply in_map_iff; eauto].
        apply CL. destruct (meets o _); [apply in_or_app; right; exact I|exact I].
    + intros o' r IO' IR. apply (NB o' r); [|exact IR]. destruct (meets o _); [right; exact IO'|exact IO'].
Qed.

(** ** A chosen slot *)
Lemma unchanged : forall s i v h0 h1 h2 h,
  nth_error (init_slots m) i = Some s -> nth_error (init_values m) i = Some v ->
  ~ bad_slot p s -> (forall o r, In o (slice (initializer m) (fst v)) -> In r (results o) -> ~ bad_value p (fst r)) ->
  empty h0 -> runs_in_order passes (initializer m) h0 h1 -> executes passes (terminator (init_slots m) (init_values m)) h1 h2 -> runs passes (rest m) h2 h ->
  forall x, slot_reach h s x -> ~ changed h x.
Proof.
  intros s i v h0 h1 h2 h N N' NS NB (E1 & E2 & E3 & E4) R1 X R2.
  assert (T0 : tidy h0) by (constructor; [intros n x Q; destruct (E1 _ _ Q)|exact E2|exact E3|intros x Q; destruct (E4 _ Q)]).
  destruct (initializer_clean (initializer m) [fst v] h0 h1 (incl_refl _) R1 T0) as [T1 C1]; [intros n _ x Q; destruct (E1 _ _ Q)|exact NB|].
  assert (IT : In (terminator (init_slots m) (init_values m)) p) by (apply in_program; auto).
  assert (B : forall x, slot_reach h2 s x -> intact h2 x).
  { intros x Q. destruct (slots_reach _ _ _ _ X s x Q) as [C|[(slots & j & u & E & M & M' & R)|[[E _]|(MU & _)]]].
    - destruct (t_slot _ T1 _ _ C).
    - cbn in E, M'. injection E as <-. assert (i = j) as <- by (apply (proj1 (NoDup_nth_error (init_slots m)) (initialized_once _ _ wf)); [apply nth_error_Some; congruence|congruence]).
      rewrite N' in M'. injection M' as <-. apply (executes_intact _ _ _ _ IT X). apply (C1 (fst v)); [left; reflexivity|exact R].
    - discriminate.
    - destruct MU as (_ & _ & MU). destruct (MU _ eq_refl). }
  assert (IR : forall o, In o (rest m) -> In o p) by (intros o I; apply in_program; auto).
  assert (L : forall x, slot_reach h s x -> intact h x).
  { clear -R2 B IR NS wf nh dn. induction R2 as [h|h h1 h2 o R IH IO X|h h1 h2 o params R IH IO X]; [exact B| |].
    - intros x Q. specialize (IH B). destruct (slots_reach _ _ _ _ X s x Q) as [C|[(slots & j & u & E & _)|[[E _]|(MU & _ & y & R1 & R2)]]].
      + exact (executes_intact _ _ _ _ (IR _ IO) X (IH _ C)).
      + destruct (plain_rest _ _ wf _ IO) as [P _]. destruct (P _ E).
      + destruct NS. eapply is_set; eauto.
      + destruct (no_change _ _ _ (IH _ R1) (IR _ IO) MU R2).
    - intros x Q. specialize (IH B). apply (enter_slots _ _ _ _ X) in Q. exact (enters_intact _ _ _ _ _ (IR _ IO) X (IH _ Q)). }
  intros x Q. exact (in_unchanged _ _ (L _ Q)).
Qed.
End Heap.

(** ** Slices *)
Lemma backward_sub : forall l needed, incl needed (fst (backward l needed)) /\ incl (snd (backward l needed)) l.
Proof.
  induction l as [|o l IH]; intros needed; [split; intros x H; exact H|]. rewrite backward_cons. destruct (IH needed) as [A B]. destruct (meets o _); cbn; split.
  - intros x H. apply in_or_app. right. apply A. exact H.
  - intros x [<-|H]; [left; reflexivity|right; apply B; exact H].
  - exact A.
  - intros x H. right. apply B. exact H.
Qed.
Lemma backward_operands : forall l needed o u, In o (snd (backward l needed)) -> In u (operands o) -> In (fst u) (fst (backward l needed)).
Proof.
  induction l as [|o1 l IH]; intros needed o u I U; [destruct I|]. rewrite backward_cons in *. destruct (meets o1 _); cbn in *; [|eapply IH; eauto].
  apply in_or_app. destruct I as [<-|I]; [left; apply in_map; exact U|right; eapply IH; eauto].
Qed.
Lemma backward_closed : forall l needed o u o2 r, ordered l -> In o (snd (backward l needed)) -> In u (operands o) -> In o2 l -> In r (results o2) -> fst u = fst r -> In o2 (snd (backward l needed)).
Proof.
  induction l as [|o1 l IH]; intros needed o u o2 r OR I U I2 R E; [destruct I|].
  assert (OR' : ordered l). { intros pre x post Q. apply (OR (o1 :: pre)). rewrite Q. reflexivity. }
  assert (HEAD : forall v o', In v (operands o1) -> In o' (o1 :: l) -> forall r', In r' (results o') -> fst v <> fst r') by (intros v o' V O' r' R'; exact (OR [] o1 l eq_refl v r' o' V O' R')).
  rewrite backward_cons in *. destruct (meets o1 (fst (backward l needed))) eqn:M; cbn in *.
  - destruct I as [<-|I]; [destruct (HEAD u o2 U I2 r R E)|]. destruct I2 as [<-|I2]; [left; reflexivity|right; eapply IH; eauto].
  - destruct I2 as [<-|I2]; [|eapply IH; eauto]. exfalso. assert (T : meets o1 (fst (backward l needed)) = true); [|congruence].
    apply meets_in. exists r. split; [exact R|]. rewrite <- E. eapply backward_operands; eauto.
Qed.
Lemma backward_needed : forall l needed o r, In o l -> In r (results o) -> In (fst r) needed -> In o (snd (backward l needed)).
Proof.
  induction l as [|o1 l IH]; intros needed o r I R N; [destruct I|]. rewrite backward_cons. destruct I as [<-|I].
  - replace (meets o1 _) with true; [left; reflexivity|]. symmetry. apply meets_in. exists r. split; [exact R|]. apply (proj1 (backward_sub l needed)). exact N.
  - specialize (IH needed o r I R N). destruct (meets o1 _); [right|]; exact IH.
Qed.
Lemma depends_in : forall l n o, depends l n o -> In o l.
Proof. induction 1; assumption. Qed.
Lemma slice_depends : forall l v o, ordered l -> (In o (slice l v) <-> depends l v o).
Proof.
  intros l v o OR. unfold slice. split.
  - assert (X : forall l' needed, incl l' l ->
       (forall n, In n (fst (backward l' needed)) -> exists n0, In n0 needed /\ forall o, depends l n o -> depends l n0 o)
       /\ (forall o, In o (snd (backward l' needed)) -> exists n0, In n0 needed /\ depends l n0 o)).
    { induction l' as [|o1 l' IH]; intros needed IN; [split; [intros n I; exists n; auto|intros o' []]|].
      destruct (IH needed) as [A B]; [intros u U; apply IN; right; exact U|]. rewrite backward_cons. destruct (meets o1 _) eqn:M; [|split; assumption]. cbn.
      apply meets_in in M. destruct M as (r & R & N). destruct (A _ N) as (n0 & I0 & D0). assert (I1 : In o1 l) by (apply IN; left; reflexivity). split.
      - intros n I. apply in_app_or in I. destruct I as [I|I]; [|auto]. apply in_map_iff in I. destruct I as (u & <- & U). exists n0. split; [exact I0|]. intros o' D. apply D0. eapply depends_before; eauto.
      - intros o' [<-|I]; [|auto]. exists n0. split; [exact I0|]. apply D0. apply depends_here; assumption. }
    intros I. destruct (proj2 (X l [v] (incl_refl _)) o I) as (n0 & [<-|[]] & D). exact D.
  - intros D. assert (X : (forall o1 r, In o1 l -> In r (results o1) -> fst r = v -> In o1 (snd (backward l [v])))).
    { intros o1 r I R E. eapply backward_needed; eauto. left. symmetry. exact E. }
    set (acc := snd (backward l [v])) in *.
    assert (CL : forall o u o2 r, In o acc -> In u (operands o) -> In o2 l -> In r (results o2) -> fst u = fst r -> In o2 acc) by (intros; eapply backward_closed; eauto).
    clearbody acc. induction D as [o r I R|o r u o' I R U D IH]; [apply (X o r I R eq_refl)|].
    apply IH. intros o1 r1 I1 R1 E. eapply (CL o u o1 r1); eauto.
Qed.
Lemma chosen_in : forall st init slots values s, In s (chosen st init slots values) <->
  exists i v, nth_error slots i = Some s /\ nth_error values i = Some v /\ ~ In s (unsafe_slots st) /\ forall o r, In o (slice init (fst v)) -> In r (results o) -> ~ In (fst r) (unsafe_values st).
Proof.
  intros st init. induction slots as [|s1 slots IH]; intros values s; cbn.
  - split; [intros []|]. intros ([|i] & v & N & _); discriminate.
  - destruct values as [|v1 values]; cbn; [split; [intros []|intros (i & v & _ & N & _); destruct i; discriminate]|]. rewrite in_app_iff, IH.
    assert (T : forall v, transitively_safe st init v = true <-> forall o r, In o (slice init v) -> In r (results o) -> ~ In (fst r) (unsafe_values st)).
    { intros v. unfold transitively_safe. rewrite forallb_forall. split.
      - intros H o r IO IR. specialize (H _ IO). rewrite forallb_forall in H. specialize (H _ IR). apply negb_true_iff, mem_out in H. exact H.
      - intros H o IO. apply forallb_forall. intros r IR. apply negb_true_iff, mem_out. eauto. }
    split.
    + intros [I|(i & v & A & B & C)]; [|exists (S i), v; auto]. destruct (mem s1 (unsafe_slots st)) eqn:M; [destruct I|]. cbn in I. destruct (transitively_safe st init (fst v1)) eqn:TS; [|destruct I].
      destruct I as [<-|[]]. exists 0, v1. cbn. split; [reflexivity|]. split; [reflexivity|]. split; [apply mem_out; exact M|apply T; exact TS].
    + intros ([|i] & v & A & B & C & D); cbn in A, B; [|right; exists i, v; auto]. injection A as ->. injection B as ->. left. apply mem_out in C. apply T in D. rewrite C, D. left. reflexivity.
Qed.
