(** C56: the status of a test suite. *)
From Coq Require Import ZArith Lia Bool String Permutation List.
From Verif Require Import Prelude OnnxModel HarnessModel HarnessSpec HarnessProps.
Import ListNotations.
Open Scope string_scope.
Open Scope list_scope.
Open Scope nat_scope.

Lemma mem_iff k l : mem k l = true <-> In k l.
Proof. unfold mem. rewrite existsb_exists. split; [intros (x & I & E); apply String.eqb_eq in E; subst; exact I|]. intros I. exists k. split; [exact I|apply String.eqb_refl]. Qed.
Lemma not_mem k l : mem k l = false <-> ~ In k l.
Proof. rewrite <- mem_iff. destruct (mem k l); split; congruence. Qed.
Lemma count_none o l : (length (filter (outcome_eqb o) l) =? 0) = false <-> In o l.
Proof.
  rewrite Nat.eqb_neq. split.
  - intros H. destruct (filter (outcome_eqb o) l) as [|x r] eqn:F; [elim H; reflexivity|]. assert (I : In x (filter (outcome_eqb o) l)) by (rewrite F; left; reflexivity). apply filter_In in I as [I E]. destruct o, x; try discriminate; exact I.
  - intros I H. apply length_zero_iff_nil in H. assert (I' : In o (filter (outcome_eqb o) l)) by (apply filter_In; split; [exact I|destruct o; reflexivity]). rewrite H in I'. exact I'.
Qed.
(** C56: a report is made when no comparison raises. *)
Theorem C56_when_reported rs xf : (exists r, report_results rs xf = Some r) <-> Forall (fun r => failed r <> None) rs.
Proof.
  unfold report_results. split.
  - intros [r H]. destruct (mapM (outcome_of xf) rs) as [l|] eqn:M; [|discriminate]. apply mapM_Forall2 in M. clear H. induction M as [|x o rs l F _ IH]; constructor; [|exact IH]. unfold outcome_of in F. destruct (failed x); [discriminate|discriminate].
  - intros F. assert (M : exists l, mapM (outcome_of xf) rs = Some l).
    { induction F as [|x rs N _ [l IH]]; [exists []; reflexivity|]. cbn [mapM]. unfold outcome_of at 1. destruct (failed x); [|congruence]. cbn [obind]. rewrite IH. cbn [obind]. eauto. }
    destruct M as [l ->]. cbn [obind]. eauto.
Qed.
(** C56: the outcome of each result, in order, and the status. *)
Theorem C56_outcomes rs xf l unexpected : report_results rs xf = Some (l, unexpected) ->
  Forall2 (fun r o => exists f, failed r = Some f /\
    (o = PASS <-> f = false /\ ~ In (r_name r) xf) /\ (o = FAIL <-> f = true /\ ~ In (r_name r) xf) /\
    (o = XFAIL <-> f = true /\ In (r_name r) xf) /\ (o = XPASS <-> f = false /\ In (r_name r) xf)) rs l /\
  (unexpected = true <-> exists r, In r rs /\ ((failed r = Some true /\ ~ In (r_name r) xf) \/ (failed r = Some false /\ In (r_name r) xf))).
Proof.
  unfold report_results. destruct (mapM (outcome_of xf) rs) as [l'|] eqn:M; [|discriminate]. cbn [obind]. intros [= <- <-]. apply mapM_Forall2 in M.
  assert (F : Forall2 (fun r o => exists f, failed r = Some f /\
    (o = PASS <-> f = false /\ ~ In (r_name r) xf) /\ (o = FAIL <-> f = true /\ ~ In (r_name r) xf) /\
    (o = XFAIL <-> f = true /\ In (r_name r) xf) /\ (o = XPASS <-> f = false /\ In (r_name r) xf)) rs l').
  { eapply Forall2_imp; [|exact M]. intros r o H. unfold outcome_of in H. destruct (failed r) as [f|]; [|discriminate]. cbn [obind] in H. exists f. split; [reflexivity|]. injection H as <-.
    destruct (mem (r_name r) xf) eqn:X; [apply mem_iff in X|apply not_mem in X]; destruct f; cbn [negb]; intuition discriminate. }
  split; [exact F|]. rewrite orb_true_iff, !negb_true_iff, !count_none. clear M. induction F as [|r o rs l (f & R & P1 & P2 & P3 & P4) _ IH].
  - split; [intros [[]|[]]|intros (? & [] & _)].
  - cbn [In]. split.
    + intros H. assert (D : (o = FAIL \/ o = XPASS) \/ (In FAIL l \/ In XPASS l)) by (destruct H as [[?|?]|[?|?]]; auto). destruct D as [D|D].
      * exists r. split; [left; reflexivity|]. rewrite R. destruct D as [D|D]; [left; apply P2 in D as [-> D]; auto|right; apply P4 in D as [-> D]; auto].
      * destruct (proj1 IH D) as (r' & I & X). exists r'. auto.
    + intros (r' & [<-|I] & X).
      * rewrite R in X. destruct X as [[[= ->] X]|[[= ->] X]]; [left; left; apply P2; auto|right; left; apply P4; auto].
      * destruct (proj2 IH) as [D|D]; [exists r'; auto| |]; auto.
Qed.

(** * Running *)
Lemma insert_by_perm {A} key (x : A) l : Permutation (insert_by key x l) (x :: l).
Proof. induction l as [|y l IH]; cbn; [auto|]. destruct (String.leb _ _); [auto|]. rewrite IH. apply perm_swap. Qed.
Lemma sort_by_perm {A} key (l : list A) : Permutation (sort_by key l) l.
Proof. induction l as [|x l IH]; cbn; [auto|]. rewrite insert_by_perm. constructor. exact IH. Qed.
Definition in_order {A} (key : A -> string) (l : list A) : Prop := forall i j x y, i < j -> nth_error l i = Some x -> nth_error l j = Some y -> String.leb (key x) (key y) = true.
Lemma in_order_cons {A} (key : A -> string) x l : in_order key (x :: l) <-> (forall y, In y l -> String.leb (key x) (key y) = true) /\ in_order key l.
Proof.
  split.
  - intros H. split; [intros y I; apply In_nth_error in I as [n N]; apply (H 0 (S n)); [lia|reflexivity|exact N]|]. intros i j a b L I J. apply (H (S i) (S j)); [lia|exact I|exact J].
  - intros [H1 H2] [|i] [|j] a b L I J; try lia; cbn in I, J; [injection I as <-; apply H1; exact (nth_error_In _ _ J)|]. apply (H2 i j); [lia|exact I|exact J].
Qed.
Lemma insert_by_order {A} key (x : A) l : in_order key l -> in_order key (insert_by key x l).
Proof.
  induction l as [|y l IH]; intros O; cbn.
  - apply in_order_cons. split; [intros ? []|exact O].
  - apply in_order_cons in O as [O1 O2]. destruct (String.leb (key x) (key y)) eqn:L; apply in_order_cons.
    + split; [|apply in_order_cons; auto]. intros z [<-|I]; [exact L|]. exact (leb_trans _ _ _ L (O1 z I)).
    + split; [|auto]. intros z I. rewrite insert_by_perm in I. destruct I as [<-|I]; [apply leb_flip; exact L|auto].
Qed.
Lemma sort_by_order {A} key (l : list A) : in_order key (sort_by key l).
Proof. induction l as [|x l IH]; [intros [] ? ? ? ? H; discriminate|]. cbn. apply insert_by_order, IH. Qed.
Lemma distinct_In k l : In k (distinct l) <-> In k l.
Proof. induction l as [|x l IH]; [reflexivity|]. cbn. destruct (mem x l) eqn:M; cbn; rewrite IH; [|reflexivity]. apply mem_iff in M. split; [auto|]. intros [<-|]; assumption. Qed.
(** C56: the result of a test that is run by itself. *)
Theorem C56_result_of_a_test t r : compile_and_run_test t = Some r -> r_name r = t_name t /\
  ((compilation_error r = false /\ runtime_error r = false /\ exists g tr, golden_run t = Done g /\ compile t = Done tt /\ run t g = Done tr /\ r_trace r = Some tr /\ r_golden r = Some g) \/
   (runtime_error r = true /\ compilation_error r = false /\ failed r = Some true /\ exists g, golden_run t = Done g /\ compile t = Done tt /\ (run t g = TimedOut \/ run t g = Raised)) \/
   (compilation_error r = true /\ runtime_error r = false /\ failed r = Some true /\ (golden_run t = TimedOut \/ golden_run t = Raised \/ compile t = TimedOut \/ compile t = Raised))).
Proof.
  unfold compile_and_run_test. destruct (golden_run t) as [g| |] eqn:G; try (intros [= <-]; split; [reflexivity|]; right; right; cbn; auto 12; fail).
  destruct (compile t) as [[]| |] eqn:C; try (intros [= <-]; split; [reflexivity|]; right; right; cbn; auto 12; fail).
  destruct (run t g) as [tr| |] eqn:R; try (intros [= <-]; split; [reflexivity|]; right; left; split; [reflexivity|]; split; [reflexivity|]; split; [reflexivity|]; exists g; auto 12; fail).
  unfold clone_trace. destruct (forallb _ tr); [|discriminate]. destruct (forallb _ g); [|discriminate]. cbn [obind]. intros [= <-]. split; [reflexivity|]. left. cbn. repeat split. exists g, tr. auto.
Qed.
(** C56: a test has a result unless it finishes with values that are not of the supported types. *)
Fixpoint supported (v : value) : Prop :=
  match v with
  | VTuple l | VList l => fold_right (fun x P => supported x /\ P) True l
  | VDict l => fold_right (fun p P => supported (snd p) /\ P) True l
  | VOther => False
  | _ => True
  end.
Definition supported_item (i : trace_item) : Prop := Forall supported (inputs i) /\ supported (output i).
Lemma cloneable_iff v : cloneable v = true <-> supported v.
Proof.
  induction v as [| | | |l IH|l IH|l IH| |] using value_nested_ind; cbn [cloneable supported]; try (split; auto; discriminate); [| |].
  1, 2: induction IH as [|x l E _ IH2]; cbn [forallb fold_right]; [tauto|]; rewrite andb_true_iff, E, IH2; reflexivity.
  - induction IH as [|x l E _ IH2]; cbn [forallb fold_right]; [tauto|]. rewrite andb_true_iff, E, IH2; reflexivity.
Qed.
Lemma clone_iff t : clone_trace t <> None <-> Forall supported_item t.
Proof.
  unfold clone_trace. assert (E : forallb (fun i => forallb cloneable (inputs i) && cloneable (output i)) t = true <-> Forall supported_item t).
  { induction t as [|i t IH]; cbn [forallb]; [split; constructor|]. rewrite !andb_true_iff, IH, cloneable_iff. assert (X : forallb cloneable (inputs i) = true <-> Forall supported (inputs i)).
    { induction (inputs i) as [|x l IHl]; cbn [forallb]; [split; constructor|]. rewrite andb_true_iff, cloneable_iff, IHl. split; [intros []; constructor; assumption|intros H; inversion H; auto]. }
    rewrite X. split; [intros [[] ]; constructor; [split; assumption|assumption]|intros H; inversion H as [|? ? []]; auto]. }
  rewrite <- E. destruct (forallb _ t); split; congruence.
Qed.
Theorem C56_when_a_test_has_a_result t : compile_and_run_test t <> None <->
  (forall g tr, golden_run t = Done g -> compile t = Done tt -> run t g = Done tr -> Forall supported_item tr /\ Forall supported_item g).
Proof.
  unfold compile_and_run_test. destruct (golden_run t) as [g| |] eqn:G; try (split; [discriminate|discriminate]). destruct (compile t) as [[]| |] eqn:C; try (split; [discriminate|discriminate]).
  destruct (run t g) as [tr| |] eqn:R; try (split; [|discriminate]; intros _ g' tr' [= <-] _; rewrite R; discriminate).
  destruct (clone_trace tr) as [a|] eqn:A.
  - destruct (clone_trace g) as [b|] eqn:B; cbn [obind].
    + split; [|discriminate]. intros _ g' tr' [= <-] _ R'. rewrite R in R'. injection R' as <-. rewrite <- !clone_iff, A, B. split; discriminate.
    + split; [congruence|]. intros H. destruct (H g tr eq_refl eq_refl R) as [_ X]. rewrite <- clone_iff in X. congruence.
  - cbn [obind]. split; [congruence|]. intros H. destruct (H g tr eq_refl eq_refl R) as [X _]. rewrite <- clone_iff in X. congruence.
Qed.
(** C56: when no process crashes, there is one result for each test, sorted by name. *)
Theorem C56_results_of_a_run tests rs : run_tests healthy_pool tests = Some rs ->
  in_order r_name rs /\ exists rs', Permutation rs' rs /\ Forall2 (fun t r => compile_and_run_test t = Some r) (sort_by t_name tests) rs' /\ Permutation (sort_by t_name tests) tests.
Proof.
  unfold run_tests, healthy_pool. set (ts := sort_by t_name tests). destruct (mapM compile_and_run_test ts) as [l|] eqn:M; [|discriminate]. cbn [obind]. intros [= <-]. split; [apply sort_by_order|].
  apply mapM_Forall2 in M. assert (N : map r_name l = map t_name ts). { clear -M. induction M as [|t r ts l H _ IH]; [reflexivity|]. cbn [map]. rewrite IH, (proj1 (C56_result_of_a_test _ _ H)). reflexivity. }
  replace (filter _ (distinct (map t_name ts))) with (@nil string).
  - cbn [map]. rewrite app_nil_r. exists l. split; [symmetry; apply sort_by_perm|]. split; [exact M|apply sort_by_perm].
  - symmetry. rewrite N. assert (X : forall k, In k (distinct (map t_name ts)) -> mem k (map t_name ts) = true) by (intros k I; apply mem_iff, distinct_In, I). revert X. generalize (map t_name ts) at 2 3. intros m X.
    induction (distinct (map t_name ts)) as [|k d IH]; [reflexivity|]. cbn [filter]. rewrite (X k (or_introl eq_refl)). cbn [negb]. apply IH. intros; apply X; right; assumption.
Qed.
(** C56: whatever the pool loses, every test has a result, and the lost ones count as failed. *)
Theorem C56_lost_tests_fail pool tests rs l : pool (sort_by t_name tests) = Some l -> run_tests pool tests = Some rs ->
  (forall r, In r rs <-> In r l \/ exists t, In t tests /\ ~ In (t_name t) (map r_name l) /\ r = aborted (t_name t)) /\
  (forall t, In t tests -> exists r, In r rs /\ r_name r = t_name t) /\ (forall n, failed (aborted n) = Some true /\ runtime_error (aborted n) = true /\ compilation_error (aborted n) = false).
Proof.
  intros P. unfold run_tests. rewrite P. cbn [obind]. intros [= <-].
  assert (A : forall r, In r (sort_by r_name (l ++ map aborted (filter (fun n => negb (mem n (map r_name l))) (distinct (map t_name (sort_by t_name tests)))))) <->
    In r l \/ exists t, In t tests /\ ~ In (t_name t) (map r_name l) /\ r = aborted (t_name t)).
  { intros r. rewrite sort_by_perm, in_app_iff, in_map_iff. split; (intros [I|X]; [left; exact I|right]).
    - destruct X as (n & <- & I). apply filter_In in I as [I N]. rewrite distinct_In, in_map_iff in I. destruct I as (t & <- & I). rewrite sort_by_perm in I. exists t. split; [exact I|]. split; [|reflexivity]. apply not_mem, negb_true_iff, N.
    - destruct X as (t & I & N & ->). exists (t_name t). split; [reflexivity|]. apply filter_In. split; [|apply negb_true_iff, not_mem, N]. rewrite distinct_In. apply in_map. rewrite sort_by_perm. exact I. }
  split; [exact A|]. split; [|auto]. intros t I. destruct (in_dec string_dec (t_name t) (map r_name l)) as [J|J].
  - apply in_map_iff in J as (r & E & J). exists r. split; [apply A; left; exact J|exact E].
  - exists (aborted (t_name t)). split; [|reflexivity]. apply A. right. exists t. auto.
Qed.
(** C56: names of registered tests are distinct. *)
Theorem C56_registered_once ts registry : foldM register_test_case ts [] = Some registry -> NoDup (map t_name registry) /\ registry = ts.
Proof.
  assert (G : forall ts r0 r, NoDup (map t_name r0) -> foldM register_test_case ts r0 = Some r -> NoDup (map t_name r) /\ r = r0 ++ ts).
  { clear. induction ts as [|t ts IH]; intros r0 r N H; cbn [foldM] in H; [injection H as <-; rewrite app_nil_r; auto|]. unfold register_test_case at 1 in H. destruct (mem (t_name t) (map t_name r0)) eqn:M; [discriminate|]. cbn [obind] in H.
    apply not_mem in M. apply IH in H; [rewrite <- app_assoc in H; exact H|]. rewrite map_app. apply NoDup_app_intro; [exact N|constructor; [intros []|constructor]|]. intros k I [<-|[]]. exact (M I). }
  intros H. apply (G ts [] registry); [constructor|exact H].
Qed.
(** C56: the exit code. *)
Definition selected (registry : list test) (crashing not_attempted : list string) (matches : string -> bool) (t : test) : Prop :=
  In t registry /\ ~ In (t_name t) (not_attempted ++ crashing) /\ matches (t_name t) = true.
Lemma filter_selected registry crashing na matches t : In t (filter (fun t => matches (t_name t)) (filter (fun t => negb (mem (t_name t) (na ++ crashing))) registry)) <-> selected registry crashing na matches t.
Proof. unfold selected. rewrite !filter_In, negb_true_iff, not_mem. tauto. Qed.
Theorem C56_exit_code registry crashing na xf matches : main registry crashing na xf matches false healthy_pool = 0%Z <->
  (forall a, In a na -> exists t, In t registry /\ t_name t = a) /\ (exists t, selected registry crashing na matches t) /\
  (forall t, selected registry crashing na matches t -> exists r, compile_and_run_test t = Some r /\ (In (t_name t) xf -> failed r = Some true) /\ (~ In (t_name t) xf -> failed r = Some false)).
Proof.
  unfold main. set (ts := filter (fun t => matches (t_name t)) _). assert (S : forall t, In t ts <-> selected registry crashing na matches t) by (intros; apply filter_selected).
  assert (V : forallb (fun a => mem a (map t_name registry)) na = true <-> forall a, In a na -> exists t, In t registry /\ t_name t = a).
  { rewrite forallb_forall. split; intros H a I; specialize (H a I); [apply mem_iff, in_map_iff in H as (t & E & J); exists t; auto|]. apply mem_iff, in_map_iff. destruct H as (t & J & E). exists t. auto. }
  destruct (forallb _ na) eqn:F; cbn [negb]; [|split; [discriminate|intros [H _]; apply V in H; discriminate]].
  destruct (Nat.eqb_spec (length ts) 0) as [L|L]; [split; [discriminate|]; intros (_ & [t T] & _); apply S in T; apply length_zero_iff_nil in L; rewrite L in T; destruct T|].
  assert (R : (forall t, selected registry crashing na matches t -> compile_and_run_test t <> None) <-> exists rs, run_tests healthy_pool ts = Some rs).
  { unfold run_tests, healthy_pool. split.
    - intros H. assert (M : exists l, mapM compile_and_run_test (sort_by t_name ts) = Some l).
      { assert (H' : forall t, In t (sort_by t_name ts) -> compile_and_run_test t <> None) by (intros t I; rewrite sort_by_perm in I; apply H, S, I). clear -H'. induction (sort_by t_name ts) as [|t l IH]; [exists []; reflexivity|]. cbn [mapM].
        pose proof (H' t (or_introl eq_refl)) as N. destruct (compile_and_run_test t); [|congruence]. cbn [obind]. destruct IH as [l' ->]; [intros; apply H'; right; assumption|]. cbn [obind]. eauto. }
      destruct M as [l ->]. cbn [obind]. eauto.
    - intros [rs H] t T. destruct (mapM _ _) as [l|] eqn:M; [|discriminate]. apply mapM_Forall2 in M. apply S in T. rewrite <- (sort_by_perm t_name ts) in T. clear -M T. induction M as [|x y a b E _ IH]; [destruct T|]; destruct T as [->|T]; [congruence|auto]. }
  destruct (run_tests healthy_pool ts) as [rs|] eqn:E.
  - destruct (C56_results_of_a_run _ _ E) as (_ & rs' & P & M & Q).
    assert (T1 : forall t, selected registry crashing na matches t -> exists r, compile_and_run_test t = Some r /\ In r rs).
    { intros t T. apply S in T. rewrite <- Q in T. assert (X : exists r, compile_and_run_test t = Some r /\ In r rs'). { clear -M T. induction M as [|x y a b H _ IH]; [destruct T|]; destruct T as [->|T]; [exists y; split; [exact H|left; reflexivity]|]. destruct (IH T) as (r & A & B). exists r. split; [exact A|right; exact B]. }
      destruct X as (r & A & B). exists r. rewrite <- P. auto. }
    assert (T2 : forall r, In r rs -> exists t, selected registry crashing na matches t /\ compile_and_run_test t = Some r).
    { intros r I. rewrite <- P in I. assert (X : exists t, In t (sort_by t_name ts) /\ compile_and_run_test t = Some r). { clear -M I. induction M as [|x y a b H _ IH]; [destruct I|]; destruct I as [->|I]; [exists x; split; [left; reflexivity|exact H]|]. destruct (IH I) as (t & A & B). exists t. split; [right; exact A|exact B]. }
      destruct X as (t & A & B). exists t. split; [|exact B]. apply S. rewrite <- Q. exact A. }
    destruct (report_results rs xf) as [[l u]|] eqn:RR.
    + destruct (C56_outcomes _ _ _ _ RR) as [O U]. assert (AL : Forall (fun r => failed r <> None) rs) by (apply (C56_when_reported rs xf); eauto). rewrite Forall_forall in AL. destruct u.
      * split; [discriminate|]. intros (_ & _ & H). destruct (proj1 U eq_refl) as (r & I & X). destruct (T2 r I) as (t & T & C). destruct (H t T) as (r' & C' & H1 & H2). rewrite C in C'. injection C' as <-. rewrite (proj1 (C56_result_of_a_test _ _ C)) in X.
        destruct X as [[X Y]|[X Y]]; [rewrite (H2 Y) in X|rewrite (H1 Y) in X]; discriminate.
      * split; [|reflexivity]. intros _. split; [apply V; reflexivity|]. split. { destruct ts as [|t ts'] eqn:TS; [elim L; reflexivity|]. exists t. apply S. left. reflexivity. }
        intros t T. destruct (T1 t T) as (r & C & I). exists r. split; [exact C|]. pose proof (AL r I) as NN. assert (NU : ~ exists r, In r rs /\ ((failed r = Some true /\ ~ In (r_name r) xf) \/ (failed r = Some false /\ In (r_name r) xf))) by (intros X; apply U in X; discriminate).
        pose proof (proj1 (C56_result_of_a_test _ _ C)) as NM. split; intros X; (destruct (failed r) as [[]|] eqn:FR; try reflexivity; [elim NU; exists r; rewrite NM; auto|congruence]) || (destruct (failed r) as [[]|] eqn:FR; try reflexivity; [|congruence]; elim NU; exists r; rewrite NM; auto).
    + split; [discriminate|]. intros (_ & _ & H). assert (X : exists r, report_results rs xf = Some r); [|destruct X; congruence]. apply C56_when_reported. apply Forall_forall. intros r I. destruct (T2 r I) as (t & T & C). destruct (H t T) as (r' & C' & H1 & H2). rewrite C in C'. injection C' as <-.
      destruct (in_dec string_dec (t_name t) xf) as [J|J]; [rewrite (H1 J)|rewrite (H2 J)]; discriminate.
  - split; [discriminate|]. intros (_ & _ & H). assert (X : exists rs : list test_result, None = Some rs); [|destruct X; discriminate]. apply R. intros t T. destruct (H t T) as (r & -> & _). discriminate.
Qed.
(** The code: a single test that returns an unsupported value leaves no report for any test. *)
Definition good_test (n : string) : test := {| t_name := n; golden_run := Done [call "forward" (VInt 1)]; compile := Done tt; run := fun t => Done t |}.
Definition none_test : test := {| t_name := "None"; golden_run := Done [call "forward" (VInt 1)]; compile := Done tt; run := fun t => Done [call "forward" VOther] |}.
Theorem C56_unsupported_value_refuted ts : In none_test ts -> run_tests healthy_pool ts = None.
Proof.
  intros I. unfold run_tests, healthy_pool. assert (J : In none_test (sort_by t_name ts)) by (rewrite sort_by_perm; exact I). assert (mapM compile_and_run_test (sort_by t_name ts) = None) as ->; [|reflexivity].
  induction (sort_by t_name ts) as [|t l IH]; [destruct J|]. cbn [mapM]. destruct J as [->|J]; [reflexivity|]. rewrite (IH J). destruct (compile_and_run_test t); reflexivity.
Qed.
(** The exit code is 0 or 1, and failures that are ignored do not count. *)
Theorem C56_exit_codes registry crashing na xf matches ignore pool :
  (main registry crashing na xf matches ignore pool = 0%Z \/ main registry crashing na xf matches ignore pool = 1%Z) /\
  (main registry crashing na xf matches false pool = 0%Z -> main registry crashing na xf matches true pool = 0%Z).
Proof.
  unfold main. destruct (negb _); [split; [auto|discriminate]|]. destruct (_ =? 0)%nat; [split; [auto|discriminate]|].
  destruct (run_tests _ _) as [rs|]; [|split; [auto|discriminate]]. destruct (report_results _ _) as [[l u]|]; [|split; [auto|discriminate]]. destruct ignore, u; auto.
Qed.
Example C56_nonvacuous : main [good_test "B"; none_test; good_test "A"] ["None"] [] [] (fun _ => true) false healthy_pool = 0%Z /\
  main [good_test "B"; none_test; good_test "A"] ["None"] ["B"] ["A"] (fun _ => true) false healthy_pool = 1%Z /\
  option_map (map r_name) (run_tests healthy_pool [good_test "B"; good_test "A"]) = Some ["A"; "B"].
Proof. repeat split. Qed.

(** * Configurations that call one function per item, such as
    /repo/projects/pt1/python/torch_mlir_e2e_test/configs/torchscript.py l.27-39. *)
Definition config_run (invoke : string -> list value -> option value) (t : trace) : option trace :=
  mapM (fun i => do o <- invoke (symbol i) (inputs i); Some {| symbol := symbol i; inputs := inputs i; output := o |}) t.
(** C55: for these, a test passes exactly when every call returned a value that agrees with the golden one (and its inputs are comparable). *)
Theorem C55_passed_by_config invoke g t n : config_run invoke g = Some t ->
  (failed {| r_name := n; compilation_error := false; runtime_error := false; r_trace := Some t; r_golden := Some g |} = Some false <->
   Forall (fun i => (exists o, invoke (symbol i) (inputs i) = Some o /\ agrees o (output i)) /\ Forall2 agrees (inputs i) (inputs i)) g).
Proof.
  intros C. rewrite C55_passed_partial by (intros ? ? [= <-] [= <-]; exact (mapM_length _ _ _ _ _ C)). unfold test_passes. cbn. apply mapM_Forall2 in C. split.
  - intros (_ & _ & t' & g' & [= <-] & [= <-] & F). induction C as [|i o g t H _ IH]; [constructor|]. inversion F as [|? ? ? ? (S & I & O) F']; subst. constructor; [|auto]. destruct (invoke (symbol i) (inputs i)) as [v|]; [|discriminate]. injection H as <-. cbn in *. split; [exists v; auto|exact I].
  - intros F. split; [reflexivity|]. split; [reflexivity|]. exists t, g. split; [reflexivity|]. split; [reflexivity|]. induction C as [|i o g t H _ IH]; [constructor|]. inversion F as [|? ? [(v & V & A) I] F']; subst. constructor; [|auto]. rewrite V in H. injection H as <-. split; [reflexivity|]. split; assumption.
Qed.

Print Assumptions C55_value.
Print Assumptions C55_reasons.
Print Assumptions C55_passed_by_config.
Print Assumptions C56_outcomes.
Print Assumptions C56_exit_code.
