(** C57, C58, C59: self-checks, lockstep debugging and the dynamo wrapper. *)
From Coq Require Import ZArith Bool Lia List.
From Verif Require Import Prelude DebugModel DebugSpec.
Import ListNotations.
Open Scope list_scope.
Open Scope nat_scope.

(** * C57 *)
Lemma normalize_results v rs : normalize v = Some rs <-> results v rs.
Proof.
  split.
  - destruct v; cbn; intro H; inversion H; subst; constructor.
  - destruct 1; reflexivity.
Qed.
Lemma returns_iff {A} (f : A -> option py) a rs : obind (f a) normalize = Some rs <-> returns f a rs.
Proof.
  unfold returns. destruct (f a) as [v|]; cbn.
  - rewrite normalize_results. split; [intro H; exists v; auto|]. intros (w & E & H). inversion E. subst. exact H.
  - split; [discriminate|]. intros (w & E & _). discriminate.
Qed.
Lemma raises_iff {A} (f : A -> option py) a : obind (f a) normalize = None <-> raises f a.
Proof.
  unfold raises. destruct (obind (f a) normalize) as [rs|] eqn:E.
  - split; [discriminate|]. intro H. destruct H. exists rs. apply returns_iff. exact E.
  - split; [|reflexivity]. intros _ (rs & R). apply returns_iff in R. congruence.
Qed.
Lemma sizes_eq s t : (length s =? length t) = true -> forallb (fun p => Z.eqb (fst p) (snd p)) (combine s t) = true -> s = t.
Proof.
  revert t. induction s as [|x s IH]; intros [|y t] L H; cbn in *; try discriminate; [reflexivity|].
  apply andb_true_iff in H. destruct H as [E H]. apply Z.eqb_eq in E. f_equal; [exact E|]. apply IH; assumption.
Qed.
Lemma sizes_refl s : forallb (fun p => Z.eqb (fst p) (snd p)) (combine s s) = true.
Proof. induction s as [|x s IH]; cbn; [reflexivity|]. rewrite Z.eqb_refl. exact IH. Qed.
Lemma shape_matches_iff r g : shape_matches r g = Some tt <-> same_sizes r g.
Proof.
  unfold same_sizes. split.
  - destruct r; cbn; try discriminate. destruct g; cbn; try discriminate.
    destruct (length l =? length shape) eqn:L; cbn; [|discriminate].
    destruct (forallb _ _) eqn:H; cbn; [|discriminate]. intros _. exists l, dtype. split; [reflexivity|]. f_equal. symmetry. apply sizes_eq; assumption.
  - intros (s & d & -> & ->). cbn. rewrite Nat.eqb_refl. cbn. rewrite sizes_refl. reflexivity.
Qed.
Lemma dtype_matches_iff r g : dtype_matches r g = Some tt <-> same_dtype r g.
Proof.
  unfold same_dtype, dtype_matches. split.
  - destruct (golden_dtype g) as [gd|] eqn:G; cbn; [|discriminate]. destruct (result_dtype r) as [rd|] eqn:R; cbn; [|discriminate].
    destruct (Z.eqb_spec rd gd) as [->|]; cbn; [|discriminate]. intros _. exists gd. split.
    + destruct r; cbn in R; inversion R; auto.
    + destruct g; cbn in G; inversion G; subst; [left|right; left|right; right]; eauto.
  - intros (c & R & G).
    assert (golden_dtype g = Some c) as -> by (destruct G as [(s & ->)|[((z & ->) & ->)|(-> & ->)]]; reflexivity).
    assert (result_dtype r = Some c) as -> by (destruct R as [-> | ->]; reflexivity). cbn. rewrite Z.eqb_refl. reflexivity.
Qed.
Lemma all_match_iff f ok (F : forall r g, f r g = Some tt <-> ok r g) rs : forall gs, length rs = length gs -> (all_match f rs gs = Some tt <-> Forall2 ok rs gs).
Proof.
  induction rs as [|r rs IH]; intros [|g gs] L; cbn in *; try discriminate.
  - split; auto.
  - specialize (F r g). destruct (f r g) as [[]|] eqn:E; cbn.
    + rewrite IH by lia. split; [intro; constructor; [apply F; reflexivity|assumption]|]. inversion 1; assumption.
    + split; [discriminate|]. inversion 1; subst. apply F in H3. discriminate.
Qed.
Lemma check_iff {A} f ok (F : forall r g, f r g = Some tt <-> ok r g) (fn op : A -> option py) l :
  check f fn op l = Some tt <-> Forall (accepted ok fn op) l.
Proof.
  induction l as [|i l IH]; cbn [check]; [split; auto|]. unfold get_fn_and_golden_results.
  assert (S : forall P, (P <-> accepted ok fn op i /\ Forall (accepted ok fn op) l) -> (P <-> Forall (accepted ok fn op) (i :: l))).
  { intros P H. rewrite H. split; [intros []; constructor; auto|]. inversion 1; auto. }
  apply S. rewrite <- IH. unfold accepted.
  pose proof (returns_iff fn (args i)) as RF. pose proof (returns_iff op (args i)) as RO.
  pose proof (raises_iff fn (args i)) as XF. pose proof (raises_iff op (args i)) as XO.
  destruct (expected_to_raise i).
  - destruct (obind (fn (args i)) normalize) as [a|]; [|destruct (obind (op (args i)) normalize) as [b|]]; cbn.
    + split; [discriminate|]. intros [[(_ & R & _)|(E & _)] _]; [apply XF in R|]; discriminate.
    + split; [discriminate|]. intros [[(_ & _ & R)|(E & _)] _]; [apply XO in R|]; discriminate.
    + split; [|tauto]. intro H. split; [left|exact H]. repeat split; [apply XF|apply XO]; reflexivity.
  - destruct (obind (fn (args i)) normalize) as [a|].
    2: { cbn. split; [discriminate|]. intros [[(E & _)|(_ & rs & gs & R & _)] _]; [|apply RF in R]; discriminate. }
    destruct (obind (op (args i)) normalize) as [b|].
    2: { cbn. split; [discriminate|]. intros [[(E & _)|(_ & rs & gs & _ & R & _)] _]; [|apply RO in R]; discriminate. }
    cbn. destruct (Nat.eqb_spec (length a) (length b)) as [L|L]; cbn.
    + pose proof (all_match_iff f ok F a b L) as M. destruct (all_match f a b) as [[]|]; cbn.
      * split; [|tauto]. intro H. split; [right|exact H]. split; [reflexivity|]. exists a, b. split; [apply RF; reflexivity|]. split; [apply RO; reflexivity|]. apply M. reflexivity.
      * split; [discriminate|]. intros [[(E & _)|(_ & rs & gs & R1 & R2 & H)] _]; [discriminate|].
        apply RF in R1. apply RO in R2. inversion R1. inversion R2. subst. apply M in H. discriminate.
    + split; [discriminate|]. intros [[(E & _)|(_ & rs & gs & R1 & R2 & H)] _]; [discriminate|].
      apply RF in R1. apply RO in R2. inversion R1. inversion R2. subst. apply Forall2_len in H. contradiction.
Qed.
(** A function passes its check exactly when it agrees with the operator on all invocations. *)
Theorem C57_shape_check {A} (fn op : A -> option py) l : check_shape_function fn op l = Some tt <-> Forall (accepted same_sizes fn op) l.
Proof. apply check_iff. exact shape_matches_iff. Qed.
Theorem C57_dtype_check {A} (fn op : A -> option py) l : check_dtype_function fn op l = Some tt <-> Forall (accepted same_dtype fn op) l.
Proof. apply check_iff. exact dtype_matches_iff. Qed.
(** A function that raises for a reason of its own passes an error invocation all the same. *)
Theorem C57_any_error_refuted : exists fn op : unit -> option py,
  fn tt = Some PyOther /\ op tt = None /\ check_shape_function fn op [{| args := tt; expected_to_raise := true |}] = Some tt.
Proof. exists (fun _ => Some PyOther), (fun _ => None). repeat split. Qed.
Example C57_nonvacuous :
  check_shape_function (fun n => if n =? 0 then None else Some (PyTuple [PyList [Z.of_nat n]; PyList []]))
    (fun n => if n =? 0 then None else Some (PyTuple [PyTensor [Z.of_nat n] 6; PyTensor [] 4])) [{| args := 0; expected_to_raise := true |}; {| args := 2; expected_to_raise := false |}] = Some tt /\
  check_shape_function (fun n => Some (PyList [2; 3]%Z)) (fun n : nat => Some (PyTensor [2; 4]%Z 6)) [{| args := 0; expected_to_raise := false |}] = None /\
  check_dtype_function (fun n => Some (PyDtype 6)) (fun n : nat => Some (PyTensor [2; 4]%Z 6)) [{| args := 0; expected_to_raise := false |}] = Some tt /\
  check_dtype_function (fun n => Some (PyInt 4)) (fun n : nat => Some PyFloat) [{| args := 0; expected_to_raise := false |}] = None.
Proof. vm_compute. auto. Qed.

(** * C58 *)
Section Lockstep.
Context {V F C : Type} (user_backend golden_backend : F -> list V -> list V -> option V) (close : V -> V -> bool).
Notation run_nodes := (run_nodes user_backend golden_backend close).
Notation golden_run := (golden_run user_backend golden_backend close).
Lemma memn_in n l : memn n l = true <-> In n l.
Proof. unfold memn. rewrite existsb_exists. split; [intros (x & I & E); apply Nat.eqb_eq in E; subst; exact I|]. intro I. exists n. split; [exact I|apply Nat.eqb_refl]. Qed.
Lemma process_spec us : forall seen ends,
  (forall u, In u (fst (process_uses us seen ends)) <-> In u us \/ In u seen) /\
  (forall u, In u (snd (process_uses us seen ends)) <-> In u ends \/ (In u us /\ ~ In u seen)) /\
  (NoDup ends -> (forall u, In u ends -> In u seen) -> NoDup (snd (process_uses us seen ends))).
Proof.
  induction us as [|u us IH]; intros seen ends; cbn [process_uses].
  - cbn. split; [intro; tauto|]. split; [intro; tauto|]. auto.
  - destruct (memn u seen) eqn:M.
    + apply memn_in in M. destruct (IH seen ends) as (A & B & D). split; [|split; [|exact D]].
      * intro x. rewrite A. cbn. split; [tauto|]. intros [[->|]|]; auto.
      * intro x. rewrite B. cbn. split; [tauto|]. intros [|[[->|] N]]; tauto.
    + assert (~ In u seen) as N by (intro H; apply memn_in in H; congruence).
      destruct (IH (u :: seen) (ends ++ [u])) as (A & B & D). split; [|split].
      * intro x. rewrite A. cbn. tauto.
      * intro x. rewrite B, in_app_iff. cbn. destruct (Nat.eq_dec u x) as [->|]; tauto.
      * intros ND S. apply D.
        -- apply NoDup_app_intro; [exact ND|repeat constructor; auto|]. intros y I [->|[]]. apply N, S, I.
        -- intros y I. rewrite in_app_iff in I. cbn in *. destruct I as [I|[->|[]]]; auto.
Qed.
Lemma uses_occurs a : forall n, In n (uses a) <-> occurs (C := C) n a.
Proof.
  revert a. fix IH 1. intros [m|c|l] n; cbn.
  - split; [intros [->|[]]; constructor|]. inversion 1; auto.
  - split; [tauto|]. inversion 1.
  - rewrite in_flat_map. split.
    + intros (a & I & U). apply occurs_list with a; [exact I|].
      assert (forall l' : list (arg C), In a l' -> In n (uses a) -> occurs n a) as G.
      { clear I l. induction l' as [|b l' IHl]; [intros []|]. intros [<-|I]; [apply IH|apply IHl, I]. }
      exact (G l I U).
    + inversion 1 as [|a l' I O]; subst. exists a. split; [exact I|].
      assert (forall l' : list (arg C), In a l' -> occurs n a -> In n (uses a)) as G.
      { clear I O l H. induction l' as [|b l' IHl]; [intros []|]. intros [<-|I]; [apply IH|apply IHl, I]. }
      exact (G l I O).
Qed.
Lemma node_uses_reads (x : node F C) n : In n (node_uses x) <-> reads x n.
Proof.
  destruct x as [k [|f l|a|l]]; cbn; unfold reads; cbn; try tauto.
  - rewrite in_flat_map. split; intros (a & I & U); exists a; (split; [exact I|]); apply uses_occurs; exact U.
  - apply uses_occurs.
  - rewrite in_flat_map. split; intros (a & I & U); exists a; (split; [exact I|]); apply uses_occurs; exact U.
Qed.
Lemma last_uses_keys (g : list (node F C)) : forall seen, map fst (last_uses g seen) = map fst g.
Proof. induction g as [|x g IH]; intro seen; cbn; [reflexivity|]. destruct (process_uses _ _ _). cbn. f_equal. apply IH. Qed.
Lemma last_uses_at (r : list (node F C)) : forall seen x u l, NoDup (map fst r) -> In x r ->
  lookup_n (last_uses r seen) (fst x) = Some l ->
  NoDup l /\ (In u l <-> In u (node_uses x) /\ ~ In u seen /\ exists p q, r = p ++ x :: q /\ forall y, In y p -> ~ In u (node_uses y)).
Proof.
  induction r as [|y r IH]; intros seen x u l ND I; [destruct I|]. inversion ND as [|? ? NI ND']; subst. cbn.
  destruct (process_spec (node_uses y) seen []) as (A & B & D).
  destruct (process_uses (node_uses y) seen []) as [seen' ends]. cbn in A, B, D.
  cbn. destruct (Nat.eqb_spec (fst y) (fst x)) as [E|E].
  - intro H. inversion H; subst. destruct I as [->|I]; [|destruct NI; rewrite E; apply in_map; exact I].
    split; [apply D; [constructor|intros ? []]|]. rewrite B. split.
    + intros [[]|[U S]]. split; [exact U|]. split; [exact S|]. exists [], r. split; [reflexivity|]. intros ? [].
    + tauto.
  - destruct I as [->|I]; [congruence|]. intro H. destruct (IH seen' x u l ND' I H) as [N R]. split; [exact N|]. rewrite R. split.
    + intros (U & S & p & q & EQ & P). split; [exact U|]. split; [intro Q; apply S, A; auto|]. exists (y :: p), q. cbn. split; [f_equal; exact EQ|].
      intros z [<-|J]; [intro Q; apply S, A; auto|]. apply P, J.
    + intros (U & S & p & q & EQ & P). split; [exact U|]. destruct p as [|z p]; cbn in EQ; inversion EQ; subst; [congruence|]. split.
      * rewrite A. intros [Q|Q]; [|auto]. apply (P z); [left; reflexivity|exact Q].
      * exists p, q. split; [reflexivity|]. intros w J. apply P. right. exact J.
Qed.
Lemma lookup_some {X} (l : list (nat * X)) k : In k (map fst l) -> exists v, lookup_n l k = Some v.
Proof. induction l as [|[a v] l IH]; cbn; [tauto|]. intros [->|I]; [rewrite Nat.eqb_refl; eauto|]. destruct (a =? k); eauto. Qed.
Lemma lookup_none {X} (l : list (nat * X)) k : ~ In k (map fst l) -> lookup_n l k = None.
Proof. induction l as [|[a v] l IH]; cbn; [reflexivity|]. intro N. destruct (Nat.eqb_spec a k); [subst; tauto|]. apply IH. tauto. Qed.
(** The values freed after a node are exactly those it reads last, each once. *)
Theorem C58_freed_after_last_use (g : list (node F C)) x n :
  NoDup (map fst g) -> In x g ->
  NoDup (ends_at (make_last_use_map g) (fst x)) /\ (In n (ends_at (make_last_use_map g) (fst x)) <-> last_reader g x n).
Proof.
  intros ND I. unfold ends_at, make_last_use_map.
  assert (NoDup (map fst (rev g))) as ND' by (rewrite map_rev; apply NoDup_rev; exact ND).
  assert (In x (rev g)) as I' by (apply in_rev in I; exact I).
  destruct (lookup_some (last_uses (rev g) []) (fst x)) as [l E].
  { rewrite last_uses_keys. apply in_map. exact I'. }
  rewrite E. destruct (last_uses_at (rev g) [] x n l ND' I' E) as [N R]. split; [exact N|]. rewrite R. unfold last_reader. rewrite node_uses_reads. split.
  - intros (U & _ & p & q & EQ & P). exists (rev q), (rev p). split; [|split; [exact U|]].
    + rewrite <- (rev_involutive g), EQ, rev_app_distr. cbn. rewrite <- app_assoc. reflexivity.
    + intros y J. rewrite <- node_uses_reads. apply P. apply in_rev. exact J.
  - intros (p & q & -> & U & P). split; [exact U|]. split; [tauto|]. exists (rev q), (rev p). split.
    + rewrite rev_app_distr. cbn. rewrite <- app_assoc. reflexivity.
    + intros y J. rewrite node_uses_reads. apply P. apply in_rev. exact J.
Qed.
Lemma split_unique {X} (p p' q q' : list (nat * X)) x : NoDup (map fst (p ++ x :: q)) -> p ++ x :: q = p' ++ x :: q' -> p = p' /\ q = q'.
Proof.
  revert p'. induction p as [|a p IH]; intros [|b p'] ND E; cbn in *; inversion E; subst; auto.
  - exfalso. inversion ND as [|? ? NI _]; subst. apply NI. rewrite map_app. apply in_or_app. right. left. reflexivity.
  - exfalso. inversion ND as [|? ? NI _]; subst. apply NI. rewrite map_app. apply in_or_app. right. left. reflexivity.
  - inversion ND; subst. destruct (IH p') as [-> ->]; auto.
Qed.
(** A value that some node reads is freed after one node and no other; a value that no node reads is never freed. *)
Theorem C58_freed_once (g : list (node F C)) n :
  NoDup (map fst g) ->
  ((exists x, In x g /\ reads x n) -> exists x, In x g /\ last_reader g x n /\
     forall y, In y g -> (In n (ends_at (make_last_use_map g) (fst y)) <-> y = x)) /\
  ((forall x, In x g -> ~ reads x n) -> forall y, In y g -> ~ In n (ends_at (make_last_use_map g) (fst y))).
Proof.
  intro ND. split.
  - intros (x & I & R).
    assert (exists x, last_reader g x n) as (z & L).
    { clear ND. revert x I R. induction g as [|a g' IH] using rev_ind; intros x I R; [destruct I|].
      destruct (in_dec Nat.eq_dec n (node_uses a)) as [U|U].
      - exists a, g', []. split; [reflexivity|]. split; [apply node_uses_reads; exact U|]. intros ? [].
      - rewrite node_uses_reads in U. apply in_app_iff in I. destruct I as [I|[->|[]]]; [|contradiction].
        destruct (IH x I R) as (w & p & q & -> & RW & P). exists w, p, (q ++ [a]). split; [rewrite <- app_assoc; reflexivity|]. split; [exact RW|].
        intros y J. apply in_app_iff in J. destruct J as [J|[<-|[]]]; auto. }
    assert (In z g) as IZ by (destruct L as (p & q & -> & _); apply in_or_app; right; left; reflexivity).
    exists z. split; [exact IZ|]. split; [exact L|]. intros y J. rewrite (proj2 (C58_freed_after_last_use g y n ND J)). split; [|intros ->; exact L].
    intro LY. destruct L as (p & q & E & RZ & PZ). destruct LY as (p' & q' & E' & RY & PY).
    assert (In y p \/ y = z \/ In y q) as [H|[H|H]].
    { rewrite E in J. apply in_app_iff in J. cbn in J. destruct J as [|[|]]; auto. }
    + exfalso. apply in_split in H. destruct H as (p1 & p2 & ->).
      assert (E2 : p1 ++ y :: (p2 ++ z :: q) = p' ++ y :: q') by (rewrite <- E', E, <- app_assoc; reflexivity).
      rewrite E, <- app_assoc in ND. cbn in ND. destruct (split_unique _ _ _ _ _ ND E2) as [_ EQ].
      apply (PY z); [rewrite <- EQ; apply in_or_app; right; left; reflexivity|exact RZ].
    + exact H.
    + destruct (PZ y H RY).
  - intros N y J. rewrite (proj2 (C58_freed_after_last_use g y n ND J)). intros (p & q & -> & R & _). exact (N y J R).
Qed.

Lemma lookup_remove (env : list (nat * V)) k n : lookup_n (remove_n env k) n = if n =? k then None else lookup_n env n.
Proof.
  unfold remove_n. induction env as [|[a v] env IH]; cbn; [destruct (n =? k); reflexivity|].
  destruct (Nat.eqb_spec a k); cbn; rewrite IH; destruct (Nat.eqb_spec n k); try reflexivity; destruct (Nat.eqb_spec a n); try reflexivity; congruence.
Qed.
Lemma pops_ok dead : forall env : list (nat * V), NoDup dead -> (forall d, In d dead -> exists v, lookup_n env d = Some v) ->
  exists env', pops env dead = Some env' /\ forall n, lookup_n env' n = if memn n dead then None else lookup_n env n.
Proof.
  induction dead as [|d dead IH]; intros env ND H; cbn.
  - exists env. auto.
  - destruct (H d) as [v ->]; [left; reflexivity|]. cbn. inversion ND as [|? ? NI ND']; subst.
    destruct (IH (remove_n env d) ND') as (env' & E & L).
    { intros x I. rewrite lookup_remove. destruct (Nat.eqb_spec x d) as [->|]; [contradiction|]. apply H. right. exact I. }
    exists env'. split; [exact E|]. intro n. rewrite L, lookup_remove. destruct (n =? d); cbn; [destruct (memn n dead); reflexivity|reflexivity].
Qed.
Lemma eval_denotes (env : list (nat * V)) (m : memory) a : (forall n, occurs n a -> lookup_n env n = m n) ->
  forall r : val V C, eval_arg env a = Some r <-> denotes m a r.
Proof.
  revert a. fix IH 1. intros [n|c|l] H r; cbn.
  - rewrite H by constructor. destruct (m n) as [v|] eqn:E; cbn.
    + split; [intro Q; inversion Q; constructor; exact E|]. inversion 1; subst. congruence.
    + split; [discriminate|]. inversion 1; subst. congruence.
  - split; [intro Q; inversion Q; constructor|]. inversion 1; reflexivity.
  - assert (G : forall vs, fold_right (fun x acc => do v <- eval_arg env x; do vs <- acc; Some (v :: vs)) (Some []) l = Some vs <-> Forall2 (denotes m) l vs).
    { assert (Hl : forall a n, In a l -> occurs n a -> lookup_n env n = m n) by (intros a n I O; apply H; econstructor; eassumption).
      clear H. induction l as [|a l IHl]; intro vs; cbn.
      - split; [intro Q; inversion Q; constructor|]. inversion 1; reflexivity.
      - pose proof (IH a (fun n O => Hl a n (or_introl eq_refl) O)) as IHa.
        assert (Hl' : forall b n, In b l -> occurs n b -> lookup_n env n = m n) by (intros b n I; apply Hl; right; exact I).
        specialize (IHl Hl'). destruct (eval_arg env a) as [v|]; cbn.
        + destruct (fold_right _ _ l) as [ws|]; cbn.
          * split; [intro Q; inversion Q; subst; constructor; [apply IHa; reflexivity|apply IHl; reflexivity]|].
            inversion 1 as [|? y ? ys D Ds]; subst. apply IHa in D. apply IHl in Ds. inversion D. inversion Ds. reflexivity.
          * split; [discriminate|]. inversion 1 as [|? y ? ys D Ds]; subst. apply IHl in Ds. discriminate.
        + split; [discriminate|]. inversion 1 as [|? y ? ys D Ds]; subst. apply IHa in D. discriminate. }
    destruct (fold_right _ _ l) as [ws|]; cbn.
    + split; [intro Q; inversion Q; constructor; apply G; reflexivity|]. inversion 1 as [| |? ? D]; subst. apply G in D. inversion D. reflexivity.
    + split; [discriminate|]. inversion 1 as [| |? ? D]; subst. apply G in D. discriminate.
Qed.
Lemma args_iff (env : list (nat * V)) (m : memory) (l : list (arg C)) : (forall n a, In a l -> occurs n a -> lookup_n env n = m n) ->
  forall vs, mapM (eval_node_arg env) l = Some vs <-> exists ms, l = map ANode ms /\ Forall2 (fun k x => m k = Some x) ms vs.
Proof.
  induction l as [|a l IH]; intros H vs; cbn.
  - split; [intro Q; inversion Q; exists []; auto|]. intros (ms & E & D). destruct ms; [|discriminate]. inversion D. reflexivity.
  - assert (H' : forall n b, In b l -> occurs n b -> lookup_n env n = m n) by (intros n b I; apply H; right; exact I). specialize (IH H').
    destruct a as [n|c|k]; cbn.
    + rewrite (H n (ANode n)) by (constructor; reflexivity). destruct (m n) as [v|] eqn:E; cbn.
      * destruct (mapM (eval_node_arg env) l) as [ws|]; cbn.
        -- destruct (proj1 (IH ws) eq_refl) as (ms & -> & D). split.
           ++ intro Q. inversion Q; subst. exists (n :: ms). split; [reflexivity|]. constructor; assumption.
           ++ intros ([|k ms'] & EQ & D'); cbn in EQ; inversion EQ; subst. inversion D' as [|? y ? ys M Ms]; subst.
              assert (Some ws = Some ys) as Q by (apply IH; exists ms'; auto). inversion Q. congruence.
        -- split; [discriminate|]. intros ([|k ms'] & EQ & D'); cbn in EQ; inversion EQ; subst. inversion D' as [|? y ? ys M Ms]; subst.
           assert (@None (list V) = Some ys) as Q by (apply IH; exists ms'; auto). discriminate.
      * split; [discriminate|]. intros ([|k ms'] & EQ & D'); cbn in EQ; inversion EQ; subst. inversion D'; subst. congruence.
    + split; [discriminate|]. intros ([|k ms'] & EQ & D'); discriminate.
    + split; [discriminate|]. intros ([|j ms'] & EQ & D'); discriminate.
Qed.
Lemma find_lookup (art : list (nat * list V)) n vs : compiled_for art n vs = match lookup_n art n with Some e => e | None => vs end.
Proof. unfold compiled_for. induction art as [|[a e] art IH]; cbn; [reflexivity|]. destruct (a =? n); [reflexivity|exact IH]. Qed.
Lemma denotes_ext (m m' : @memory V) : (forall n, m n = m' n) -> forall (a : arg C) r, denotes m a r -> denotes m' a r.
Proof.
  intro HM. fix D 1. intros a r H. destruct a; inversion H; subst.
  - constructor. rewrite <- HM. assumption.
  - constructor.
  - constructor. clear H. revert vs H1. induction l as [|a l IHl]; inversion 1; subst; constructor; [apply D; assumption|apply IHl; assumption].
Qed.
Lemma golden_ext (g : list (node F C)) : forall ex ex' m m' r, (forall n vs, In n (map fst g) -> ex n vs = ex' n vs) -> (forall n, m n = m' n) ->
  golden_run ex g m r -> golden_run ex' g m' r.
Proof.
  induction g as [|[n o] g IH]; intros ex ex' m m' r HE HM H; [inversion H|].
  assert (HE' : forall k vs, In k (map fst g) -> ex k vs = ex' k vs) by (intros; apply HE; right; assumption).
  inversion H; subst.
  - constructor. eapply IH; eassumption.
  - constructor. eapply denotes_ext; eassumption.
  - eapply golden_call with (ms := ms) (vs := vs) (u := u) (v := v).
    + reflexivity.
    + match goal with Q : Forall2 _ ms vs |- _ => clear - HM Q; induction Q; constructor; [rewrite <- HM; assumption|assumption] end.
    + rewrite <- HE by (left; reflexivity). eassumption.
    + rewrite <- HE by (left; reflexivity). eassumption.
    + assumption.
    + eapply IH; [eassumption| |eassumption]. intro k. unfold store. destruct (k =? n); [reflexivity|apply HM].
Qed.
Lemma run_iff (G : list (node F C)) (ND : NoDup (map fst G)) : forall g p, G = p ++ g -> forall env m art r,
  (forall n x, In x g -> reads x n -> lookup_n env n = m n) ->
  ((exists art', run_nodes (make_last_use_map G) g env art = Some (r, art')) <-> golden_run (compiled_for art) g m r).
Proof.
  induction g as [|[n o] g IH]; intros p EG env m art r H.
  { split; [intros (a & Q); discriminate|inversion 1]. }
  assert (EG' : G = (p ++ [(n, o)]) ++ g) by (rewrite <- app_assoc; exact EG).
  assert (IX : In (n, o) G) by (rewrite EG; apply in_or_app; right; left; reflexivity).
  assert (Hg : forall k x, In x g -> reads x k -> lookup_n env k = m k) by (intros k x I; apply H; right; exact I).
  assert (NG : ~ In n (map fst g)).
  { rewrite EG, map_app in ND. cbn in ND. apply NoDup_remove_2 in ND. rewrite in_app_iff in ND. tauto. }
  destruct o as [|f l|a|l]; cbn [DebugModel.run_nodes].
  - rewrite (IH _ EG' env m art r Hg). split; [constructor; assumption|]. inversion 1; assumption.
  - assert (Hl : forall k a, In a l -> occurs k a -> lookup_n env k = m k).
    { intros k a I O. apply (H k (n, CallFunction f l)); [left; reflexivity|]. exists a. auto. }
    pose proof (args_iff env m l Hl) as AI.
    destruct (mapM (eval_node_arg env) l) as [actual|]; cbn.
    2: { split; [intros (x & Q); discriminate|]. inversion 1; subst. assert (@None (list V) = Some vs) as Q by (apply AI; eauto). discriminate. }
    destruct (proj1 (AI actual) eq_refl) as (ms & El & Fm).
    set (art2 := match lookup_n art n with Some e => (e, art) | None => (actual, (n, actual) :: art) end).
    assert (E1 : fst art2 = compiled_for art n actual) by (rewrite find_lookup; unfold art2; destruct (lookup_n art n); reflexivity).
    assert (E2 : forall k vs, In k (map fst g) -> compiled_for (snd art2) k vs = compiled_for art k vs).
    { intros k vs I. rewrite !find_lookup. unfold art2. destruct (lookup_n art n); cbn; [reflexivity|]. destruct (Nat.eqb_spec n k); [subst; contradiction|reflexivity]. }
    destruct art2 as [example art2]. cbn in E1, E2. subst example.
    assert (VS : forall vs, (exists ms', l = map ANode ms' /\ Forall2 (fun k x => m k = Some x) ms' vs) -> vs = actual).
    { intros vs Q. apply AI in Q. congruence. }
    destruct (user_backend f (compiled_for art n actual) actual) as [u|] eqn:EU; cbn.
    2: { split; [intros (x & Q); discriminate|]. inversion 1; subst. rewrite (VS vs) in * by eauto. congruence. }
    destruct (golden_backend f (compiled_for art n actual) actual) as [v|] eqn:EV; cbn.
    2: { split; [intros (x & Q); discriminate|]. inversion 1; subst. rewrite (VS vs) in * by eauto. congruence. }
    destruct (close u v) eqn:EC; cbn.
    2: { split; [intros (x & Q); discriminate|]. inversion 1; subst. rewrite (VS vs) in * by eauto. congruence. }
    set (env1 := (n, v) :: remove_n env n).
    assert (L1 : forall k, lookup_n env1 k = if k =? n then Some v else lookup_n env k).
    { intro k. unfold env1. cbn. rewrite lookup_remove. rewrite (Nat.eqb_sym n k). destruct (k =? n); reflexivity. }
    pose proof (fun k => C58_freed_after_last_use G (n, CallFunction f l) k ND IX) as FR. cbn [fst] in FR.
    destruct (pops_ok (ends_at (make_last_use_map G) n) env1) as (env' & EP & LP).
    + exact (proj1 (FR 0)).
    + intros d I. apply (proj2 (FR d)) in I. destruct I as (b & a & _ & (x & Ix & Ox) & _). rewrite L1. destruct (d =? n); [eauto|].
      rewrite El in Ix. apply in_map_iff in Ix. destruct Ix as (j & <- & Ij). inversion Ox; subst.
      rewrite (Hl j (ANode j)); [|apply in_map; exact Ij|constructor].
      clear - Fm Ij. induction Fm; [destruct Ij|]. destruct Ij as [->|Ij]; eauto.
    + fold env1. rewrite EP. cbn.
      assert (Hg' : forall k x, In x g -> reads x k -> lookup_n env' k = store m n v k).
      { intros k x I R. rewrite LP, L1. unfold store.
        assert (memn k (ends_at (make_last_use_map G) n) = false) as ->.
        { destruct (memn k _) eqn:M; [|reflexivity]. apply memn_in in M. apply (proj2 (FR k)) in M. destruct M as (b & a & EQ & _ & NR).
          rewrite EG in EQ, ND. destruct (split_unique _ _ _ _ _ ND EQ) as [_ <-]. destruct (NR x I R). }
        destruct (k =? n); [reflexivity|]. apply (Hg k x I R). }
      rewrite (IH _ EG' env' (store m n v) art2 r Hg'). split.
      * intro Q. eapply golden_call; [exact El|exact Fm|exact EU|exact EV|exact EC|]. eapply golden_ext; [|reflexivity|exact Q]. exact E2.
      * inversion 1 as [| |? ? ? ms' vs u' v' ? ? ? El' Fm' EU' EV' EC' Q]; subst. rewrite (VS vs) in * by eauto. rewrite EV in EV'. inversion EV'; subst.
        eapply golden_ext; [|reflexivity|exact Q]. intros k vs' I. symmetry. apply E2, I.
  - pose proof (eval_denotes env m a (fun k O => H k (n, OutputOp a) (or_introl eq_refl) O)) as ED.
    destruct (eval_arg env a) as [x|]; cbn.
    + split; [intros (art' & Q); inversion Q; subst; constructor; apply ED; reflexivity|]. inversion 1; subst. exists art. f_equal. f_equal. enough (Some x = Some r) by congruence. apply ED. assumption.
    + split; [intros (art' & Q); discriminate|]. inversion 1; subst. enough (@None (val V C) = Some r) by discriminate. apply ED. assumption.
  - split; [intros (art' & Q); discriminate|inversion 1].
Qed.
Lemma placeholders_filter (g : list (node F C)) : placeholders g = map fst (filter (fun x => match snd x with Placeholder => true | _ => false end) g).
Proof. unfold placeholders. induction g as [|[n o] g IH]; cbn; [reflexivity|]. rewrite IH. destruct o; reflexivity. Qed.
Lemma lookup_in {X} (l : list (nat * X)) k v : NoDup (map fst l) -> (lookup_n l k = Some v <-> In (k, v) l).
Proof.
  induction l as [|[a x] l IH]; cbn; intro ND; [split; [discriminate|tauto]|]. inversion ND as [|? ? NI ND']; subst.
  destruct (Nat.eqb_spec a k) as [->|N].
  - split; [intro Q; inversion Q; auto|]. intros [Q|I]; [congruence|]. destruct NI. apply (in_map fst) in I. exact I.
  - rewrite IH by exact ND'. split; [auto|]. intros [Q|I]; [congruence|exact I].
Qed.
Lemma combine_fst {X} (a : list nat) : forall b : list X, exists k, map fst (combine a b) = firstn k a.
Proof. induction a as [|x a IH]; intros [|y b]; cbn; try (exists 0; reflexivity). destruct (IH b) as [k ->]. exists (S k). reflexivity. Qed.
Lemma NoDup_firstn {X} k (l : list X) : NoDup l -> NoDup (firstn k l).
Proof. revert l. induction k; intros [|x l] H; cbn; try constructor; inversion H; subst; [|auto]. intro I. apply H2. rewrite <- (firstn_skipn k l). apply in_or_app. auto. Qed.
Lemma in_combine_nth {X} (a : list nat) : forall (b : list X) n v, In (n, v) (combine a b) <-> exists k, nth_error a k = Some n /\ nth_error b k = Some v.
Proof.
  induction a as [|x a IH]; intros [|y b] n v; cbn.
  - split; [tauto|]. intros ([|k] & Q & _); discriminate.
  - split; [tauto|]. intros ([|k] & Q & _); discriminate.
  - split; [tauto|]. intros ([|k] & _ & Q); discriminate.
  - rewrite IH. split.
    + intros [Q|(k & A & B)]; [inversion Q; exists 0; auto|exists (S k); auto].
    + intros ([|k] & A & B); cbn in *; [left; congruence|right; eauto].
Qed.
Lemma inputs_held (g : list (node F C)) (inputs : list V) : NoDup (map fst g) ->
  holds_inputs g inputs (lookup_n (rev (combine (placeholders g) inputs))).
Proof.
  intros ND n v. rewrite lookup_in.
  - rewrite <- in_rev, in_combine_nth, placeholders_filter. split; intros (k & A & B); exists k; (split; [|exact B]).
    + rewrite nth_error_map in A. destruct (nth_error _ k) as [[j o]|] eqn:E; cbn in A; [|discriminate]. inversion A; subst.
      apply nth_error_In in E as I. apply filter_In in I. destruct I as [_ I]. destruct o; cbn in I; try discriminate. reflexivity.
    + rewrite nth_error_map, A. reflexivity.
  - rewrite map_rev. apply NoDup_rev. destruct (combine_fst (placeholders g) inputs) as [k ->]. apply NoDup_firstn. rewrite placeholders_filter.
    clear - ND. induction g as [|[n o] g IH]; cbn; [constructor|]. inversion ND as [|? ? NI ND']; subst. destruct o; cbn; auto.
    constructor; [|auto]. intro I. apply NI. apply in_map_iff in I. destruct I as (x & <- & I). apply filter_In in I. apply in_map. tauto.
Qed.
(** Freeing values never changes what a run computes: it returns the golden result exactly when the golden evaluation, keeping all values, has
    it and the user's backend was close to the golden one at every node. *)
Theorem C58_golden_result (g : list (node F C)) art inputs (m : memory) r :
  NoDup (map fst g) -> holds_inputs g inputs m ->
  ((exists art', compiled user_backend golden_backend close g art inputs = Some (r, art')) <-> golden_run (compiled_for art) g m r).
Proof.
  intros ND HI. unfold compiled. apply (run_iff g ND g []); [reflexivity|]. intros n x _ _.
  pose proof (inputs_held g inputs ND) as HL. specialize (HI n). specialize (HL n).
  destruct (lookup_n _ n) as [v|] eqn:E.
  - symmetry. apply HI. apply HL. reflexivity.
  - destruct (m n) as [v|]; [|reflexivity]. assert (@None V = Some v) as Q by (apply HL, HI; reflexivity). discriminate.
Qed.
(** A call with an argument that is not a value of the graph, such as a constant or a list, cannot be debugged. *)
Theorem C58_constants_refuted m n f (l : list (arg C)) g env art :
  (exists a, In a l /\ forall k, a <> ANode k) -> run_nodes m ((n, CallFunction f l) :: g) env art = None.
Proof.
  intros (a & I & N). cbn. enough (mapM (eval_node_arg env) l = None) as -> by reflexivity.
  induction l as [|b l IH]; [destruct I|]. cbn. destruct I as [->|I].
  - destruct a as [k|c|k]; cbn; try reflexivity. destruct (N k). reflexivity.
  - rewrite IH by exact I. destruct (eval_node_arg env b); reflexivity.
Qed.
End Lockstep.
(** Constants are refused even when nothing else is wrong. *)
Definition sample : list (node nat nat) :=
  [(0, Placeholder); (1, Placeholder); (2, CallFunction 7 [ANode 0; ANode 1]); (3, CallFunction 8 [ANode 2; ANode 0]); (4, CallFunction 9 [ANode 1]); (5, OutputOp (AList [ANode 3; AConst 1]))].
Definition backend (f : nat) (e a : list nat) : option nat := Some (f + fold_right Nat.add 0 a).
Example C58_nonvacuous :
  make_last_use_map sample = [(5, [3]); (4, [1]); (3, [2; 0]); (2, []); (1, []); (0, [])] /\
  compiled backend backend Nat.eqb sample [] [10; 20] = Some (VL [VV 55; VC 1], [(4, [20]); (3, [37; 10]); (2, [10; 20])]) /\
  compiled backend (fun f e a => Some 0) Nat.eqb sample [] [10; 20] = None /\ compiled backend backend Nat.eqb sample [] [10] = None.
Proof. vm_compute. auto. Qed.

(** * C59 *)
(** Whatever the leaves become, the caller gets the structure of the original output. *)
Theorem C59_structure_restored {A B} (f : A -> B) (t : tree A) :
  let '(t', unwrapped, converted) := adjust_calling_convention t in
  dynamo_callable unwrapped converted (map_tree f t') = Some (map_tree f t).
Proof. destruct t as [l|[|x [|y l]]|[|x [|y l]]]; reflexivity. Qed.
(** Also if the backend runs the stale code that still returns a list, because the module was not recompiled. *)
Theorem C59_stale_code {A B} (f : A -> B) l t' unwrapped converted :
  adjust_calling_convention (ListOf l) = (t', unwrapped, converted) -> unwrapped = false ->
  dynamo_callable unwrapped converted (map_tree f (ListOf l)) = Some (map_tree f (ListOf l)).
Proof. intros H ->. destruct l as [|x [|y l]]; cbn in H; inversion H; reflexivity. Qed.
(** The adjusted output of a flat structure is one the importer supports, with the same leaves. *)
Theorem C59_adjusted_supported_partial {A} (t : tree A) : flat t -> supported (fst (fst (adjust_calling_convention t))).
Proof.
  unfold supported. intros [(x & ->)|[(l & ->)|(l & ->)]]; [left; exists x; reflexivity|..]; destruct l as [|x [|y l]]; cbn;
    try (left; eexists; reflexivity); right; [exists []|exists (x :: y :: l)|exists []|exists (x :: y :: l)]; (split; [reflexivity|cbn; lia]).
Qed.
(** Nested single elements are not adjusted again. *)
Theorem C59_nested_refuted : exists t : tree nat, ~ supported (fst (fst (adjust_calling_convention t))).
Proof.
  exists (TupleOf [TupleOf [Leaf 0]]). cbn. intros [(l & Q)|(l & Q & N)]; [discriminate|].
  destruct l as [|x [|y l]]; cbn in *; try discriminate. lia.
Qed.
Example C59_nonvacuous :
  adjust_calling_convention (ListOf [Leaf 3]) = (Leaf 3, true, true) /\ dynamo_callable true true (Leaf 4) = Some (ListOf [Leaf 4]) /\
  adjust_calling_convention (ListOf [Leaf 3; Leaf 4]) = (TupleOf [Leaf 3; Leaf 4], false, true) /\
  adjust_calling_convention (TupleOf [Leaf 3; Leaf 4]) = (TupleOf [Leaf 3; Leaf 4], false, false) /\ dynamo_callable false true (Leaf 3) = None.
Proof. repeat split. Qed.

Print Assumptions C57_shape_check.
Print Assumptions C57_dtype_check.
Print Assumptions C58_freed_after_last_use.
Print Assumptions C58_freed_once.
Print Assumptions C58_golden_result.
Print Assumptions C59_structure_restored.
