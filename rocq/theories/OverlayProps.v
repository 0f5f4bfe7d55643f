(** Fusing two directories with symbolic links (utils/bazel/overlay_directories.py). *)
From Coq Require Import Bool String List.
From Verif Require Import Prelude OverlayModel.
Import ListNotations.
Open Scope string_scope.
Open Scope list_scope.

(** * Specification *)
(** [reaches n p m]: from [n], path [p] leads to the file or directory [m], following links. *)
Inductive reaches : node -> path -> node -> Prop :=
| r_file c : reaches (File c) [] (File c)
| r_dir es : reaches (Dir es) [] (Dir es)
| r_link n p m : reaches n p m -> reaches (Link n) p m
| r_in es x n p m : In (x, n) es -> reaches n p m -> reaches (Dir es) (x :: p) m.
(** The same without following links. *)
Inductive within : node -> path -> node -> Prop :=
| w_here n : within n [] n
| w_in es x n p m : In (x, n) es -> within n p m -> within (Dir es) (x :: p) m.
(** The names in a directory are different. *)
Inductive wf : node -> Prop :=
| wf_file c : wf (File c)
| wf_broken : wf Broken
| wf_link n : wf n -> wf (Link n)
| wf_dir es : NoDup (map fst es) -> (forall x n, In (x, n) es -> wf n) -> wf (Dir es).

Section Spec.
Variables (overlay src : node) (names : list string).
(** What one finds in the fused directory: the directories of the overlay; what the other entries of the overlay lead to;
    and what is in the source under names that the overlay does not have. *)
Inductive kind := AFile (c : string) | ADir.
Inductive kind_of : node -> kind -> Prop := k_file c : kind_of (File c) (AFile c) | k_dir es : kind_of (Dir es) ADir.
Inductive fused : path -> kind -> Prop :=
| f_dir q es : within overlay q (Dir es) -> fused q ADir
| f_over p es x n r m k : within overlay p (Dir es) -> In (x, n) es -> (forall es', n <> Dir es') ->
    reaches n r m -> kind_of m k -> fused (p ++ x :: r) k
| f_src p es x r m k : within overlay p (Dir es) -> ~ In x (map fst es) ->
    reaches src (p ++ x :: r) m -> kind_of m k -> fused (p ++ x :: r) k.
(** What one finds in the target: directories that were made, and what links lead to. *)
Inductive sees (t : target) : path -> kind -> Prop :=
| s_made q : t q = Some Made -> sees t q ADir
| s_link p r s m k : t p = Some (Linked s) ->
    reaches (match s with Overlay => overlay | Source => src end) (p ++ r) m -> kind_of m k -> sees t (p ++ r) k.
(** When the directories can be fused: every directory of the overlay is one of the source and is not there already,
    and a link of the overlay that leads nowhere is not the name of something in the source. *)
Record fits : Prop := {
  fit_dirs : forall p es, within overlay p (Dir es) -> exists ses, reaches src p (Dir ses);
  fit_new : forall x es, within overlay [x] (Dir es) -> ~ In x names;
  fit_broken : forall p es x n ses, within overlay p (Dir es) -> In (x, n) es -> ~ (exists m, reaches n [] m) ->
    ~ (p = [] /\ In x names) -> reaches src p (Dir ses) -> ~ In x (map fst ses) }.
(** Every path of the target afterwards. *)
Inductive layout : path -> made -> Prop :=
| l_top : layout [] Made
| l_made p x es : within overlay (p ++ [x]) (Dir es) -> layout (p ++ [x]) Made
| l_old x : In x names -> layout [x] Old
| l_over p x es n : within overlay p (Dir es) -> In (x, n) es -> ~ (exists es', reaches n [] (Dir es')) ->
    ~ (p = [] /\ In x names) -> layout (p ++ [x]) (Linked Overlay)
| l_src p x es ses : within overlay p (Dir es) -> ~ In x (map fst es) -> reaches src p (Dir ses) -> In x (map fst ses) ->
    ~ (p = [] /\ In x names) -> layout (p ++ [x]) (Linked Source).
End Spec.

(** * Lemmas *)
Section NodeInd.
Variable P : node -> Prop.
Hypothesis Hf : forall c, P (File c).
Hypothesis Hd : forall es, (forall x n, In (x, n) es -> P n) -> P (Dir es).
Hypothesis Hl : forall n, P n -> P (Link n).
Hypothesis Hb : P Broken.
Fixpoint node_ind' (n : node) : P n :=
  match n with
  | File c => Hf c
  | Dir es => Hd es ((fix go l : forall x n, In (x, n) l -> P n :=
      match l with
      | [] => fun x n H => match H with end
      | (y, m) :: r => fun x n H => match H with
          | or_introl E => eq_ind m P (node_ind' m) n (f_equal snd E)
          | or_intror H' => go r x n H' end
      end) es)
  | Link m => Hl m (node_ind' m)
  | Broken => Hb
  end.
End NodeInd.

Lemma entry_in : forall es x n, NoDup (map fst es) -> (entry x es = Some n <-> In (x, n) es).
Proof.
  unfold entry. induction es as [|[y m] es IH]; intros x n ND; cbn.
  - split; [discriminate|tauto].
  - inversion ND as [|? ? N ND']; subst. destruct (String.eqb_spec y x) as [->|Y]; cbn.
    + split; [intros [= ->]; auto|]. intros [[= ->]|I]; auto. exfalso. apply N. change x with (fst (x, n)). now apply in_map.
    + rewrite IH by auto. split; [auto|]. intros [[= ]|]; [contradiction|auto].
Qed.
Lemma entry_none : forall es x, entry x es = None <-> ~ In x (map fst es).
Proof.
  unfold entry. induction es as [|[y m] es IH]; intros x; cbn; [tauto|].
  destruct (String.eqb_spec y x) as [->|Y]; cbn; [split; [discriminate|tauto]|]. rewrite IH. tauto.
Qed.
Lemma in_names : forall (es : list (string * node)) x, In x (map fst es) <-> exists n, In (x, n) es.
Proof.
  intros; rewrite in_map_iff; split; [intros [[y n] [<- I]]; eauto|intros [n I]; exists (x, n); auto].
Qed.
Lemma unique : forall (es : list (string * node)) x n m, NoDup (map fst es) -> In (x, n) es -> In (x, m) es -> n = m.
Proof. intros es x n m ND A B. apply entry_in in A; auto. apply entry_in in B; auto. congruence. Qed.

Lemma follow_reaches : forall n m, follow n = Some m <-> reaches n [] m.
Proof.
  induction n using node_ind'; intros m; cbn; split; intro H'; try discriminate; try (now inversion H'; subst).
  - injection H' as <-. constructor.
  - injection H' as <-. constructor.
  - constructor. now apply IHn.
  - apply IHn. now inversion H'.
Qed.
Lemma follow_wf : forall n m, wf n -> follow n = Some m -> wf m.
Proof. induction n using node_ind'; cbn; intros m W F; inversion W; subst; try discriminate; auto; injection F as <-; auto. Qed.
Lemma follow_cons : forall n x p m, reaches n (x :: p) m <-> exists es, follow n = Some (Dir es) /\ reaches (Dir es) (x :: p) m.
Proof.
  induction n using node_ind'; intros x p m; cbn; split.
  - intros R; inversion R.
  - intros [es [[= ] _]].
  - intros R; eauto.
  - intros [? [[= <-] R]]; auto.
  - intros R; inversion R; subst. now apply IHn.
  - intros R; constructor; now apply IHn.
  - intros R; inversion R.
  - intros [? [[= ] _]].
Qed.
Lemma lookup_reaches : forall p n m, wf n -> (lookup n p = Some m <-> reaches n p m).
Proof.
  induction p as [|x p IH]; intros n m W; cbn; [apply follow_reaches|]. rewrite follow_cons.
  destruct (follow n) as [[c|es|k|]|] eqn:F; try (split; [discriminate|intros [? [[= ] _]]]).
  assert (W' := follow_wf _ _ W F). inversion W' as [| | |? ND Wc]; subst.
  split.
  - intros H. exists es. split; auto. destruct (entry x es) as [c|] eqn:E; [|discriminate].
    apply entry_in in E; auto. apply r_in with c; auto. apply IH; eauto.
  - intros [es' [[= <-] R]]. inversion R; subst. rewrite (proj2 (entry_in es x n0 ND)) by auto. apply IH; eauto.
Qed.
Lemma lookup_none : forall p n, wf n -> (lookup n p = None <-> ~ exists m, reaches n p m).
Proof.
  intros p n W. destruct (lookup n p) as [m|] eqn:L.
  - apply lookup_reaches in L; auto. split; [discriminate|]. intros H. exfalso. eauto.
  - split; auto. intros _ [m R]. apply lookup_reaches in R; auto. congruence.
Qed.
Lemma reaches_fun : forall p n m m', wf n -> reaches n p m -> reaches n p m' -> m = m'.
Proof. intros p n m m' W A B. apply lookup_reaches in A; auto. apply lookup_reaches in B; auto. congruence. Qed.
Lemma within_wf : forall n p m, within n p m -> wf n -> wf m.
Proof. intros n p m W; induction W; auto. intros Wd; inversion Wd; subst; eauto. Qed.
Lemma within_fun : forall n p m, within n p m -> forall m', wf n -> within n p m' -> m = m'.
Proof.
  intros n p m W; induction W; intros m' Wn W'; inversion W'; subst; auto.
  inversion Wn as [| | |? ND Wc]; subst. assert (n0 = n) by (eapply unique; eauto). subst. eauto.
Qed.
Lemma within_app : forall n p m, within n p m -> forall q k, within m q k -> within n (p ++ q) k.
Proof. intros n p m W; induction W; intros q k K; cbn; auto. apply w_in with n; auto. Qed.
Lemma within_split : forall p q n k, within n (p ++ q) k -> exists m, within n p m /\ within m q k.
Proof.
  induction p as [|x p IH]; intros q n k W; cbn in W; [exists n; split; auto; constructor|].
  inversion W; subst. destruct (IH _ _ _ H4) as [m [A B]]. exists m. split; auto. now apply w_in with n0.
Qed.
Lemma within_snoc : forall n p x m, within n (p ++ [x]) m -> exists es, within n p (Dir es) /\ In (x, m) es.
Proof.
  intros n p x m W. apply within_split in W as [d [A B]]. inversion B; subst. inversion H4; subst. eauto.
Qed.
Lemma reaches_app : forall n p m, within n p m -> forall q k, reaches m q k -> reaches n (p ++ q) k.
Proof. intros n p m W; induction W; intros q k K; cbn; auto. apply r_in with n; auto. Qed.
Lemma reaches_unapp : forall n p m, within n p m -> wf n -> forall q k, reaches n (p ++ q) k -> reaches m q k.
Proof.
  intros n p m W; induction W; intros Wn q k K; cbn in K; auto.
  inversion Wn as [| | |? ND Wc]; subst. inversion K; subst.
  assert (n0 = n) by (eapply unique; eauto). subst. eauto.
Qed.

(** ** The walk *)
Definition root (w : path * list string * list string) : path := fst (fst w).
Lemma walk_in : forall n q p ds fs, In (p, ds, fs) (walk q n) <->
  exists r es, p = q ++ r /\ within n r (Dir es) /\ ds = dirs es /\ fs = files es.
Proof.
  induction n as [c|es IH|n IH|] using node_ind'; intros q p ds fs; cbn.
  - split; [tauto|]. intros [r [es [_ [W _]]]]. inversion W.
  - rewrite in_flat_map. split.
    + intros [[= <- <- <-]|[[x n] [I H]]].
      * exists [], es. rewrite app_nil_r. repeat split; auto. constructor.
      * apply (IH x n I) in H as [r [es' [-> [W [-> ->]]]]]. exists (x :: r), es'.
        rewrite <- app_assoc. repeat split; auto. now apply w_in with n.
    + intros [r [es' [-> [W [-> ->]]]]]. inversion W as [|? x n p0 ? I W0]; subst.
      * left. now rewrite app_nil_r.
      * right. exists (x, n). split; auto. apply (IH x n I). exists p0, es'. rewrite <- app_assoc. auto.
  - split; [tauto|]. intros [r [es [_ [W _]]]]. inversion W.
  - split; [tauto|]. intros [r [es [_ [W _]]]]. inversion W.
Qed.
Lemma snoc_inj : forall (p q : path) x y, p ++ [x] = q ++ [y] -> p = q /\ x = y.
Proof. intros p q x y H. apply app_inj_tail in H. auto. Qed.
Lemma walk_nodup : forall n q, wf n -> NoDup (map root (walk q n)).
Proof.
  induction n as [c|es IH|n IH|] using node_ind'; intros q W; cbn; try constructor.
  - inversion W as [| | |? ND Wc]; subst. rewrite in_map_iff. intros [[[p ds] fs] [E I]]. cbn in E. subst p.
    rewrite in_flat_map in I. destruct I as [[x n] [I H]]. apply walk_in in H as [r [es' [E _]]].
    rewrite <- app_assoc in E. assert (L := f_equal (@length _) E). rewrite app_length in L. cbn in L.
    clear -L. induction q; cbn in *; [discriminate|]. apply IHq. now injection L.
  - inversion W as [| | |? ND Wc]; subst. clear W.
    induction es as [|[x n] es IHe]; cbn; [constructor|]. inversion ND as [|? ? N ND']; subst.
    rewrite map_app. apply NoDup_app_intro.
    + apply IH with x; cbn; auto. apply Wc with x; cbn; auto.
    + apply IHe; auto; [intros y m I; apply IH with y|intros y m I; apply Wc with y]; cbn; auto.
    + intros p A B. rewrite in_map_iff in A, B. destruct A as [[[a d] f] [Ea A]]. destruct B as [[[b d'] f'] [Eb B]].
      cbn in Ea, Eb. subst a b. rewrite in_flat_map in B. destruct B as [[y m] [I B]].
      apply walk_in in A as [r [? [E _]]]. apply walk_in in B as [r' [? [E' _]]].
      cbn in E, E'. subst p. rewrite <- !app_assoc in E'. apply app_inv_head in E'. injection E' as E' _. subst y.
      apply N. change x with (fst (x, m)). now apply in_map.
Qed.
(** The directory of a walked directory has been walked before. *)
Lemma walk_before : forall n q l w r, walk q n = l ++ w :: r -> wf n ->
  root w = q \/ exists p x es, root w = p ++ [x] /\ In p (map root l) /\ (exists s, p = q ++ s /\ within n s (Dir es)) .
Proof.
  induction n as [c|es IH|n IH|] using node_ind'; intros q l w r E W; cbn in E; try (destruct l; discriminate).
  destruct l as [|w0 l]; cbn in E; injection E as E0 E.
  - left. now subst w.
  - right. subst w0. inversion W as [| | |? ND Wc]; subst.
    assert (G : forall es', (forall e, In e es' -> In e es) -> forall l, flat_map (fun e => walk (q ++ [fst e]) (snd e)) es' = l ++ w :: r ->
      exists p x es0, root w = p ++ [x] /\ (p = q \/ In p (map root l)) /\ (exists s, p = q ++ s /\ within (Dir es) s (Dir es0))).
    { clear E l. induction es' as [|[x n] es' IHe]; intros Sub l E; cbn in E; [destruct l; discriminate|].
      assert (I : In (x, n) es) by (apply Sub; cbn; auto).
      destruct (app_eq_app _ _ _ _ E) as [k [[E1 E2]|[E1 E2]]].
      - destruct k as [|w' k]; cbn in E2.
        + destruct (IHe (fun e H => Sub e (or_intror H)) [] (eq_sym E2)) as [p [y [es0 [R [[->|[]] O]]]]].
          exists q, y, es0. auto.
        + injection E2 as <- E2. destruct (IH x n I _ _ _ _ E1 (Wc _ _ I)) as [R|[p [y [es0 [R [In_ [s [-> Ws]]]]]]]].
          * exists q, x, es. repeat split; auto. exists []. rewrite app_nil_r. split; auto. constructor.
          * exists ((q ++ [x]) ++ s), y, es0. repeat split; auto. exists (x :: s). rewrite <- app_assoc. split; auto.
            now apply w_in with n.
      - destruct (IHe (fun e H => Sub e (or_intror H)) k E2) as [p [y [es0 [R [O Q]]]]].
        exists p, y, es0. split; auto. split; auto. destruct O; auto. right. rewrite E1, map_app, in_app_iff. auto. }
    destruct (G es (fun _ H => H) l E) as [p [x [es0 [R [O Q]]]]]. exists p, x, es0. split; auto. split; auto.
    cbn. destruct O; auto.
Qed.

(** ** Links *)
Lemma in_dirs : forall es x, In x (dirs es) <-> exists n es', In (x, n) es /\ reaches n [] (Dir es').
Proof.
  intros es x. unfold dirs. rewrite in_map_iff. split.
  - intros [[y n] [<- I]]. rewrite filter_In in I. destruct I as [I D]. unfold is_dir in D. cbn in D.
    destruct (follow n) as [[]|] eqn:F; try discriminate. apply follow_reaches in F. eauto.
  - intros [n [es' [I R]]]. exists (x, n). rewrite filter_In. unfold is_dir. cbn. apply follow_reaches in R. rewrite R. auto.
Qed.
Lemma in_files : forall es x, In x (files es) <-> exists n, In (x, n) es /\ ~ (exists es', reaches n [] (Dir es')).
Proof.
  intros es x. unfold files. rewrite in_map_iff. split.
  - intros [[y n] [<- I]]. rewrite filter_In in I. destruct I as [I D]. unfold is_dir in D. cbn in D.
    exists n. split; auto. intros [es' R]. apply follow_reaches in R. rewrite R in D. discriminate.
  - intros [n [I N]]. exists (x, n). rewrite filter_In. unfold is_dir. cbn. split; auto. split; auto.
    destruct (follow n) as [[]|] eqn:F; auto. exfalso. apply N. apply follow_reaches in F. eauto.
Qed.
Lemma nodup_filter : forall (f : string * node -> bool) es, NoDup (map fst es) -> NoDup (map fst (filter f es)).
Proof.
  intros f. induction es as [|[x n] es IH]; cbn; intros ND; [constructor|]. inversion ND as [|? ? N ND']; subst.
  destruct (f (x, n)); cbn; auto. constructor; auto. intros H. apply N. rewrite in_map_iff in *.
  destruct H as [e [E H]]. rewrite filter_In in H. exists e. tauto.
Qed.
Lemma existsb_in : forall (x : string) l, existsb (String.eqb x) l = true <-> In x l.
Proof.
  intros x l. rewrite existsb_exists. split; [intros [y [I E]]; apply String.eqb_eq in E; now subst|].
  intros I; exists x; split; auto; apply String.eqb_refl.
Qed.
Lemma put_spec : forall t p m q m', put t p m q = Some m' <-> (q = p /\ m' = m) \/ (q <> p /\ t q = Some m').
Proof.
  intros t p m q m'. unfold put. destruct (path_dec p q) as [E|E].
  - split; [intros [= <-]; auto|]. intros [[_ ->]|[N _]]; auto. congruence.
  - split; [intros H; right; split; auto|intros [[-> _]|[_ H]]; auto; congruence].
Qed.

Section Loop.
Variables (overlay src : node) (names : list string).
Hypotheses (Wo : wf overlay) (Ws : wf src).
(** A link can be made at [p], or is not needed. *)
Definition can (t : target) (p : path) : Prop := t p = None \/ exists_ overlay src t p = true.
Lemma links : forall s p l t, NoDup l ->
  (forall x, In x l -> can t (p ++ [x])) ->
  exists t', foldM (fun t f => symlink overlay src s t (p ++ [f])) l t = Some t' /\
    forall q m, t' q = Some m <-> t q = Some m \/ (t q = None /\ m = Linked s /\ exists x, In x l /\ q = p ++ [x]).
Proof.
  intros s p. induction l as [|x l IH]; intros t ND C; cbn.
  - exists t. split; auto. intros q m. split; auto. intros [H|[_ [_ [x [[] _]]]]]; auto.
  - inversion ND as [|? ? N ND']; subst. unfold symlink at 1. assert (Cx := C x (or_introl eq_refl)).
    destruct (exists_ overlay src t (p ++ [x])) eqn:E.
    + cbn. destruct (IH t ND') as [t' [F Q]]; [intros y I; apply C; cbn; auto|]. exists t'. split; auto.
      intros q m. rewrite Q. split.
      * intros [H|[A [B [y [I D]]]]]; auto. right. repeat split; auto. exists y. cbn. auto.
      * intros [H|[A [B [y [[<-|I] D]]]]]; auto.
        -- subst q. exfalso. unfold exists_ in E. rewrite A in E. discriminate.
        -- right. repeat split; auto. exists y. auto.
    + destruct Cx as [Cx|Cx]; [|congruence]. rewrite Cx. cbn.
      destruct (IH (put t (p ++ [x]) (Linked s)) ND') as [t' [F Q]].
      { intros y I. destruct (C y (or_intror I)) as [A|A].
        - left. destruct (put _ _ _ (p ++ [y])) eqn:P; auto. apply put_spec in P as [[P _]|[_ P]]; [|congruence].
          apply snoc_inj in P as [_ ->]. contradiction.
        - right. unfold exists_ in *. unfold put. destruct (path_dec _ _) as [P|P]; auto.
          apply snoc_inj in P as [_ ->]. contradiction. }
      exists t'. split; auto. intros q m. rewrite Q, put_spec. split.
      * intros [[[-> ->]|[Nq H]]|[A [-> [y [I D]]]]]; auto.
        -- right. repeat split; auto. exists x. cbn. auto.
        -- right. unfold put in A. destruct (path_dec _ _); [discriminate|]. repeat split; auto. exists y. cbn. auto.
      * intros [H|[A [-> [y [[<-|I] D]]]]].
        -- left. right. split; auto. intros ->. congruence.
        -- left. left. auto.
        -- right. unfold put. destruct (path_dec _ _) as [P|P].
           { exfalso. rewrite D in P. apply snoc_inj in P as [_ ->]. contradiction. }
           repeat split; auto. exists y. auto.
Qed.
Lemma links_conv : forall s p l t t', NoDup l ->
  foldM (fun t f => symlink overlay src s t (p ++ [f])) l t = Some t' -> forall x, In x l -> can t (p ++ [x]).
Proof.
  intros s p. induction l as [|x l IH]; intros t t' ND F y I; cbn in *; [tauto|].
  inversion ND as [|? ? N ND']; subst. unfold symlink at 1 in F. unfold can.
  destruct (exists_ overlay src t (p ++ [x])) eqn:E.
  - cbn in F. destruct I as [<-|I]; auto. eapply IH; eauto.
  - destruct (t (p ++ [x])) eqn:T; [discriminate|]. cbn in F. destruct I as [<-|I]; auto.
    destruct (IH _ _ ND' F y I) as [A|A].
    + left. unfold put in A. destruct (path_dec _ _); [discriminate|]. auto.
    + right. unfold exists_ in *. unfold put in A. destruct (path_dec _ _) as [P|P]; auto.
      apply snoc_inj in P as [_ ->]. contradiction.
Qed.
Lemma fold_filter : forall s p ds l t,
  foldM (fun t e => if existsb (String.eqb e) ds then Some t else symlink overlay src s t (p ++ [e])) l t =
  foldM (fun t f => symlink overlay src s t (p ++ [f])) (filter (fun e => negb (existsb (String.eqb e) ds)) l) t.
Proof.
  intros s p ds. induction l as [|x l IH]; intros t; cbn; auto.
  destruct (existsb (String.eqb x) ds); cbn; auto. destruct (symlink _ _ _ _ _); cbn; auto.
Qed.

(** The target when the directories in [V] have been visited. *)
Inductive part (V : path -> Prop) : path -> made -> Prop :=
| p_top : part V [] Made
| p_made p x : V (p ++ [x]) -> part V (p ++ [x]) Made
| p_old x : In x names -> part V [x] Old
| p_over p x es n : V p -> within overlay p (Dir es) -> In (x, n) es -> ~ (exists es', reaches n [] (Dir es')) ->
    ~ (p = [] /\ In x names) -> part V (p ++ [x]) (Linked Overlay)
| p_src p x es ses : V p -> within overlay p (Dir es) -> ~ In x (map fst es) -> reaches src p (Dir ses) -> In x (map fst ses) ->
    ~ (p = [] /\ In x names) -> part V (p ++ [x]) (Linked Source).
(** What is needed to visit the directory at [p] with entries [es]. *)
Record fits_at (p : path) (es : list (string * node)) : Prop := {
  fa_dir : exists ses, reaches src p (Dir ses);
  fa_new : forall x, p = [x] -> ~ In x names;
  fa_broken : forall x n ses, In (x, n) es -> ~ (exists m, reaches n [] m) -> ~ (p = [] /\ In x names) ->
    reaches src p (Dir ses) -> ~ In x (map fst ses) }.
Definition inv (V : path -> Prop) (t : target) : Prop := forall q m, t q = Some m <-> part V q m.

Lemma listdir_spec : forall p l, listdir src p = Some l <-> exists ses, reaches src p (Dir ses) /\ l = map fst ses.
Proof.
  intros p l. unfold listdir. split.
  - destruct (lookup src p) as [[]|] eqn:L; intros [= <-]. apply lookup_reaches in L; eauto.
  - intros [ses [R ->]]. apply lookup_reaches in R; auto. now rewrite R.
Qed.
Lemma before_inv : inv (fun _ => False) (before names).
Proof.
  intros q m. split.
  - unfold before. destruct q as [|x [|y q]]; try discriminate; [intros [= <-]; constructor|].
    destruct (existsb _ _) eqn:E; [|discriminate]. intros [= <-]. apply p_old. now apply existsb_in.
  - intros P. inversion P; subst; try contradiction; cbn; auto.
    assert (E : existsb (String.eqb x) names = true) by now apply existsb_in. now rewrite E.
Qed.

Section Step.
Variables (V : path -> Prop) (t : target) (p : path) (es : list (string * node)).
Hypotheses (HI : inv V t) (Hp : within overlay p (Dir es)) (HV : ~ V p)
  (HVc : forall q x, V (q ++ [x]) -> V q)
  (Hparent : p = [] \/ exists p' x, p = p' ++ [x] /\ V p').
Definition V' (q : path) : Prop := V q \/ q = p.

Lemma es_nodup : NoDup (map fst es).
Proof. assert (W := within_wf _ _ _ Hp Wo). now inversion W. Qed.
(** At [p] there is nothing but an old entry, before its visit. *)
Lemma none_at : p <> [] -> forall m, t p = Some m -> m = Old /\ exists x, p = [x] /\ In x names.
Proof.
  intros NE m T. apply HI in T. inversion T as [E|p0 x HVx E|x I E|p0 x es0 n HV0 W0 I0 N0 C0 E|p0 x es0 ses HV0 W0 I0 R0 S0 C0 E]; subst m.
  - congruence.
  - subst p. contradiction.
  - eauto.
  - subst p. exfalso. apply within_snoc in Hp as [es1 [W1 I1]].
    assert (E := within_fun _ _ _ W0 _ Wo W1). injection E as <-.
    assert (n = Dir es). { eapply unique; eauto. assert (W := within_wf _ _ _ W0 Wo). now inversion W. }
    subst n. apply N0. exists es. constructor.
  - subst p. exfalso. apply within_snoc in Hp as [es1 [W1 I1]].
    assert (E := within_fun _ _ _ W0 _ Wo W1). injection E as <-. apply I0. apply in_names. eauto.
Qed.
Lemma nothing_in : forall x m, t (p ++ [x]) = Some m -> m = Old /\ p = [] /\ In x names.
Proof.
  intros x m T. apply HI in T. inversion T as [E|p0 y HVx E|y I E|p0 y es0 n HV0 W0 I0 N0 C0 E|p0 y es0 ses HV0 W0 I0 R0 S0 C0 E]; subst m.
  - destruct p; discriminate.
  - exfalso. rewrite E in HVx. apply HVc in HVx. contradiction.
  - destruct p as [|a [|b r]]; cbn in E; try discriminate. injection E as ->. auto.
  - apply snoc_inj in E as [-> ->]. contradiction.
  - apply snoc_inj in E as [-> ->]. contradiction.
Qed.
Lemma snoc_neq : forall (q : path) x, q ++ [x] <> q.
Proof. intros q x E. assert (L := f_equal (@length _) E). rewrite app_length in L. cbn in L. induction q; cbn in *; [discriminate|]. apply IHq; [congruence|]. now injection L. Qed.
Definition entered : option target := match p with [] => Some t | _ => mkdir t p end.
Lemma enter : (forall x, p = [x] -> ~ In x names) ->
  exists t1, entered = Some t1 /\ forall q m, t1 q = Some m <-> t q = Some m \/ (q = p /\ m = Made).
Proof.
  intros New. unfold entered. destruct Hparent as [P|[p' [x [P HVp]]]].
  - rewrite P. exists t. split; auto. intros q m. split; auto. intros [H|[-> ->]]; auto. apply HI. constructor.
  - assert (NE : p <> []) by (rewrite P; destruct p'; discriminate).
    assert (T : t p = None).
    { destruct (t p) as [m|] eqn:T; auto. apply none_at in T as [_ [y [E I]]]; auto. exfalso. now apply (New y). }
    assert (T' : t (removelast p) = Some Made).
    { rewrite P, removelast_last. apply HI. destruct p' as [|a r] using rev_ind; constructor. auto. }
    destruct p as [|a r] eqn:Ep; [congruence|]. unfold mkdir. rewrite T, T'. eexists. split; [reflexivity|].
    intros q m. rewrite put_spec. split; [tauto|]. intros [H|H]; [|auto]. right. split; auto. congruence.
Qed.
Lemma enter_conv : forall t1, entered = Some t1 -> forall x, p = [x] -> ~ In x names.
Proof.
  intros t1 E x P I. unfold entered in E. rewrite P in E. unfold mkdir in E.
  assert (T : t [x] = Some Old) by (apply HI; now constructor). rewrite T in E. discriminate.
Qed.
Lemma visit_eq : visit overlay src t (p, dirs es, files es) =
  obind entered (fun t1 => obind (foldM (fun t f => symlink overlay src Overlay t (p ++ [f])) (files es) t1)
    (fun t2 => obind (listdir src p) (fun l =>
      foldM (fun t f => symlink overlay src Source t (p ++ [f])) (filter (fun e => negb (existsb (String.eqb e) (dirs es))) l) t2))).
Proof.
  unfold visit, entered. destruct (match p with [] => Some t | _ :: _ => mkdir t p end); cbn [obind]; auto.
  destruct (foldM _ (files es) t0); cbn [obind]; auto. destruct (listdir src p); cbn [obind]; auto. apply fold_filter.
Qed.
Lemma can1 : forall t1, (forall q m, t1 q = Some m <-> t q = Some m \/ (q = p /\ m = Made)) -> forall x, can t1 (p ++ [x]).
Proof.
  intros t1 T1 x. unfold can. destruct (t1 (p ++ [x])) as [m|] eqn:T; auto. right.
  unfold exists_. rewrite T. apply T1 in T as [T|[T _]].
  - apply nothing_in in T as [-> _]. auto.
  - now apply snoc_neq in T.
Qed.
Lemma in_kept : forall (ses : list (string * node)) x, In x (filter (fun e => negb (existsb (String.eqb e) (dirs es))) (map fst ses)) <->
  In x (map fst ses) /\ ~ In x (dirs es).
Proof.
  intros ses x. rewrite filter_In, negb_true_iff. rewrite <- (existsb_in x (dirs es)). rewrite not_true_iff_false. tauto.
Qed.
Lemma src_nodup : forall ses, reaches src p (Dir ses) -> NoDup (filter (fun e => negb (existsb (String.eqb e) (dirs es))) (map fst ses)).
Proof.
  intros ses R. apply NoDup_filter. assert (W : wf (Dir ses)); [|now inversion W].
  clear -R Ws. revert R Ws. generalize p. generalize (Dir ses). intros m q R. induction R; intros W; auto; inversion W; subst; eauto.
Qed.
(** Whether the name [x] can be linked after the links to the overlay. *)
Lemma can2 : forall t1 t2, (forall q m, t1 q = Some m <-> t q = Some m \/ (q = p /\ m = Made)) ->
  (forall q m, t2 q = Some m <-> t1 q = Some m \/ (t1 q = None /\ m = Linked Overlay /\ exists x, In x (files es) /\ q = p ++ [x])) ->
  forall x, ~ In x (dirs es) ->
  (can t2 (p ++ [x]) <-> (forall n, In (x, n) es -> ~ (exists m, reaches n [] m) -> p = [] /\ In x names)).
Proof.
  intros t1 t2 T1 T2 x ND. split.
  - intros C n I B. destruct (t1 (p ++ [x])) as [m|] eqn:E1.
    + apply T1 in E1 as [E1|[E1 _]]; [apply nothing_in in E1; tauto|now apply snoc_neq in E1].
    + exfalso. assert (E2 : t2 (p ++ [x]) = Some (Linked Overlay)).
      { apply T2. right. repeat split; auto. exists x. split; auto. apply in_files. exists n. split; auto.
        intros [es' R]. apply B. eauto. }
      destruct C as [C|C]; [congruence|]. unfold exists_ in C. rewrite E2 in C. cbn in C.
      destruct (lookup overlay (p ++ [x])) as [m|] eqn:L; [|discriminate]. apply lookup_reaches in L; auto.
      apply (reaches_unapp _ _ _ Hp Wo) in L. inversion L; subst.
      assert (n0 = n) by (eapply unique; eauto using es_nodup). subst. eauto.
  - intros H. unfold can. destruct (t2 (p ++ [x])) as [m|] eqn:E2; auto. right. unfold exists_. rewrite E2.
    apply T2 in E2 as [E1|[E1 [-> [y [F E]]]]].
    + apply T1 in E1 as [E1|[E1 _]]; [|now apply snoc_neq in E1]. apply nothing_in in E1 as [-> _]. auto.
    + apply snoc_inj in E as [_ <-]. apply in_files in F as [n [I NDn]]. cbn.
      destruct (lookup overlay (p ++ [x])) as [m|] eqn:L; auto. exfalso. apply lookup_none in L; auto.
      assert (B : ~ exists m, reaches n [] m).
      { intros [m R]. apply L. exists m. apply (reaches_app _ _ _ Hp). apply r_in with n; auto. }
      destruct (H n I B) as [P In_]. assert (T : t (p ++ [x]) = Some Old) by (apply HI; rewrite P; now constructor).
      assert (t1 (p ++ [x]) = Some Old) by (apply T1; auto). congruence.
Qed.
Lemma visit_conv : forall t', visit overlay src t (p, dirs es, files es) = Some t' -> fits_at p es.
Proof.
  intros t' E. rewrite visit_eq in E. destruct entered as [t1|] eqn:E1; [|discriminate]. cbn [obind] in E.
  assert (New := enter_conv _ E1). destruct (enter New) as [t1' [E1' T1]]. rewrite E1 in E1'. injection E1' as <-.
  destruct (links Overlay p (files es) t1 (nodup_filter _ _ es_nodup) (fun x _ => can1 t1 T1 x)) as [t2 [E2 T2]].
  rewrite E2 in E. cbn [obind] in E. destruct (listdir src p) as [l|] eqn:L; [|discriminate]. cbn [obind] in E.
  apply listdir_spec in L as [ses [R ->]]. assert (C := links_conv _ _ _ _ _ (src_nodup _ R) E).
  constructor; eauto. intros x n ses' I B O R'. assert (D := reaches_fun _ _ _ _ Ws R R'). injection D as <-.
  intros Is. apply O. assert (ND : ~ In x (dirs es)).
  { intros D. apply in_dirs in D as [n' [es' [I' R0]]]. assert (n' = n) by (eapply unique; eauto using es_nodup). subst. eauto. }
  apply (proj1 (can2 t1 t2 T1 T2 x ND)) with n; auto. apply C. apply in_kept. auto.
Qed.
Lemma visit_ok : fits_at p es -> exists t', visit overlay src t (p, dirs es, files es) = Some t' /\ inv V' t'.
Proof.
  intros [[ses R] New B]. rewrite visit_eq. destruct (enter New) as [t1 [-> T1]]. cbn [obind].
  destruct (links Overlay p (files es) t1 (nodup_filter _ _ es_nodup) (fun x _ => can1 t1 T1 x)) as [t2 [-> T2]]. cbn [obind].
  rewrite (proj2 (listdir_spec p _)) by eauto. cbn [obind].
  destruct (links Source p _ t2 (src_nodup _ R)) as [t3 [E3 T3]].
  { intros x I. apply in_kept in I as [Is ND]. apply (can2 t1 t2 T1 T2 x ND). intros n I Bn.
    destruct (in_dec string_dec x names) as [In_|Nn]; [destruct p as [|a r]; auto|];
      exfalso; apply (B x n ses I Bn); auto; intros [? ?]; auto; discriminate. }
  exists t3. split; auto. intros q m. pose proof (HI q m) as HI'. rewrite T3, T2, T1, HI'. split.
  - intros [[[P|[-> ->]]|[N1 [-> [x [F ->]]]]]|[N2 [-> [x [F ->]]]]].
    + destruct P; [apply p_top|apply p_made; left; auto|now apply p_old|apply p_over with es0 n; auto; left; auto|apply p_src with es0 ses0; auto; left; auto].
    + destruct Hparent as [P|[p' [x [P _]]]]; rewrite P; [apply p_top|apply p_made; right; auto].
    + apply in_files in F as [n [I NDn]]. apply p_over with es n; auto; [right; auto|].
      intros [P In_]. assert (T : t (p ++ [x]) = Some Old) by (apply HI; rewrite P; now constructor).
      assert (t1 (p ++ [x]) = Some Old) by (apply T1; auto). congruence.
    + apply in_kept in F as [Is ND]. apply p_src with es ses; auto; [right; auto| |].
      * intros I. apply in_names in I as [n I]. assert (F : In x (files es)).
        { apply in_files. exists n. split; auto. intros [es' R']. apply ND. apply in_dirs. eauto. }
        destruct (t1 (p ++ [x])) as [mm|] eqn:E1.
        { assert (t2 (p ++ [x]) = Some mm) by (apply T2; auto). congruence. }
        assert (t2 (p ++ [x]) = Some (Linked Overlay)) by (apply T2; right; repeat split; eauto). congruence.
      * intros [P In_]. assert (T : t (p ++ [x]) = Some Old) by (apply HI; rewrite P; now constructor).
        assert (t1 (p ++ [x]) = Some Old) by (apply T1; auto). assert (t2 (p ++ [x]) = Some Old) by (apply T2; auto). congruence.
  - assert (N1 : forall x, ~ (p = [] /\ In x names) -> t1 (p ++ [x]) = None).
    { intros x O. destruct (t1 (p ++ [x])) as [mm|] eqn:E1; auto. exfalso. apply T1 in E1 as [E1|[E1 _]]; [|now apply snoc_neq in E1].
      apply nothing_in in E1. tauto. }
    intros P. inversion P as [E|p0 x HVx E|x I E|p0 x es0 n HV0 W0 I0 N0 C0 E|p0 x es0 ses0 HV0 W0 I0 R0 S0 C0 E]; subst q m.
    + left. left. left. constructor.
    + destruct HVx as [HVx|HVx]; [left; left; left; now constructor|left; left; right; auto].
    + left. left. left. now constructor.
    + destruct HV0 as [HV0| ->]; [left; left; left; econstructor; eauto|].
      assert (E := within_fun _ _ _ W0 _ Wo Hp). injection E as ->.
      left. right. repeat split; auto. exists x. split; auto. apply in_files. eauto.
    + destruct HV0 as [HV0| ->]; [left; left; left; econstructor; eauto|].
      assert (E := within_fun _ _ _ W0 _ Wo Hp). injection E as ->.
      assert (E := reaches_fun _ _ _ _ Ws R R0). injection E as <-.
      right. split; [|split; auto; exists x; split; auto].
      * destruct (t2 (p ++ [x])) as [mm|] eqn:E2; auto. apply T2 in E2 as [E1|[_ [_ [y [F E]]]]].
        { rewrite N1 in E1; auto; discriminate. }
        apply snoc_inj in E as [_ <-]. apply in_files in F as [n [I _]]. exfalso. apply I0. apply in_names. eauto.
      * apply in_kept. split; auto. intros D. apply in_dirs in D as [n [? [I _]]]. apply I0. apply in_names. eauto.
Qed.
End Step.
End Loop.

Section Main.
Variables (overlay src : node) (names : list string).
Hypotheses (Wo : wf overlay) (Ws : wf src).
Lemma inv_ext : forall V W t, (forall q, V q <-> W q) -> inv overlay src names V t -> inv overlay src names W t.
Proof.
  intros V W t VW I q m. rewrite (I q m). split; intros P; destruct P; try (econstructor; eauto; fail);
    try (apply p_made; apply VW; auto); try (eapply p_over; eauto; apply VW; auto); try (eapply p_src; eauto; apply VW; auto).
Qed.
Lemma roots : forall q, In q (map root (walk [] overlay)) <-> exists es, within overlay q (Dir es).
Proof.
  intros q. rewrite in_map_iff. split.
  - intros [[[p ds] fs] [E I]]. cbn in E. subst p. apply walk_in in I as [r [es [-> [W _]]]]. cbn. eauto.
  - intros [es W]. exists (q, dirs es, files es). split; auto. apply walk_in. exists q, es. auto.
Qed.
Lemma head_facts : forall don p ds fs rest, walk [] overlay = don ++ (p, ds, fs) :: rest ->
  (exists es, within overlay p (Dir es) /\ ds = dirs es /\ fs = files es) /\ ~ In p (map root don) /\
  (p = [] \/ exists p' x, p = p' ++ [x] /\ In p' (map root don)).
Proof.
  intros don p ds fs rest E. split; [|split].
  - assert (I : In (p, ds, fs) (walk [] overlay)) by (rewrite E, in_app_iff; cbn; auto).
    apply walk_in in I as [r [es [-> [W [-> ->]]]]]. eauto.
  - assert (N := walk_nodup overlay [] Wo). rewrite E, map_app in N. cbn in N. apply NoDup_remove_2 in N.
    intros I. apply N. apply in_app_iff. auto.
  - destruct (walk_before _ _ _ _ _ E Wo) as [R|[p' [x [es [R [I _]]]]]]; [left|right]; cbn in R; auto. eauto.
Qed.
Lemma closed : forall don rest, walk [] overlay = don ++ rest -> forall q x, In (q ++ [x]) (map root don) -> In q (map root don).
Proof.
  intros don rest E q x I. apply in_map_iff in I as [w [R I]]. apply in_split in I as [l1 [l2 ->]].
  rewrite <- app_assoc in E. cbn in E. destruct (walk_before _ _ _ _ _ E Wo) as [R'|[p' [y [es [R' [I _]]]]]].
  - rewrite R' in R. destruct q; discriminate.
  - rewrite R in R'. apply snoc_inj in R' as [<- <-]. rewrite map_app, in_app_iff. auto.
Qed.
Lemma loop_ok : forall rest don t, walk [] overlay = don ++ rest -> inv overlay src names (fun q => In q (map root don)) t ->
  (forall p es, In p (map root rest) -> within overlay p (Dir es) -> fits_at src names p es) ->
  exists t', foldM (visit overlay src) rest t = Some t' /\ inv overlay src names (fun q => In q (map root (walk [] overlay))) t'.
Proof.
  induction rest as [|[[p ds] fs] rest IH]; intros don t E I F; cbn [foldM].
  - exists t. split; auto. rewrite E, app_nil_r. auto.
  - destruct (head_facts _ _ _ _ _ E) as [[es [W [-> ->]]] [N P]].
    destruct (visit_ok overlay src names Wo Ws _ t p es I W N (closed _ _ E) P) as [t1 [E1 I1]].
    { apply F; cbn; auto. }
    rewrite E1. cbn [obind]. apply IH with (don ++ [(p, dirs es, files es)]).
    + rewrite E, <- app_assoc. auto.
    + eapply inv_ext; [|exact I1]. intros q. unfold V'. cbn. rewrite map_app, in_app_iff. cbn. intuition.
    + intros p' es' I' W'. apply F; cbn; auto.
Qed.
Lemma loop_conv : forall rest don t t', walk [] overlay = don ++ rest -> inv overlay src names (fun q => In q (map root don)) t ->
  foldM (visit overlay src) rest t = Some t' ->
  forall p es, In p (map root rest) -> within overlay p (Dir es) -> fits_at src names p es.
Proof.
  induction rest as [|[[p ds] fs] rest IH]; intros don t t' E I F q es' Iq Wq; cbn [foldM] in F; [destruct Iq|].
  destruct (head_facts _ _ _ _ _ E) as [[es [W [-> ->]]] [N P]].
  destruct (visit overlay src t (p, dirs es, files es)) as [t1|] eqn:E1; [|discriminate]. cbn [obind] in F.
  assert (Fp := visit_conv overlay src names Wo Ws _ t p es I W N (closed _ _ E) P _ E1).
  destruct Iq as [Eq|Iq].
  - cbn in Eq. subst q. assert (D := within_fun _ _ _ W _ Wo Wq). injection D as <-. auto.
  - destruct (visit_ok overlay src names Wo Ws _ t p es I W N (closed _ _ E) P Fp) as [t1' [E1' I1]].
    rewrite E1 in E1'. injection E1' as <-.
    apply (IH (don ++ [(p, dirs es, files es)]) t1 t'); auto.
    + rewrite E, <- app_assoc. auto.
    + eapply inv_ext; [|exact I1]. intros r. unfold V'. cbn. rewrite map_app, in_app_iff. cbn. intuition.
Qed.
Lemma start : inv overlay src names (fun q => In q (map root [])) (before names).
Proof. apply before_inv. Qed.
Lemma fits_all : fits overlay src names <-> forall p es, In p (map root (walk [] overlay)) -> within overlay p (Dir es) -> fits_at src names p es.
Proof.
  split.
  - intros [A B C] p es _ W. constructor; eauto. intros x ->. eauto.
  - intros F. assert (G : forall p es, within overlay p (Dir es) -> fits_at src names p es).
    { intros p es W. apply F; auto. apply roots. eauto. }
    constructor.
    + intros p es W. apply (fa_dir _ _ _ _ (G p es W)).
    + intros x es W. now apply (fa_new _ _ _ _ (G _ es W)).
    + intros p es x n ses W. apply (fa_broken _ _ _ _ (G p es W)).
Qed.
Lemma layout_part : forall q m, layout overlay src names q m <-> part overlay src names (fun q => In q (map root (walk [] overlay))) q m.
Proof.
  intros q m. split; intros P; destruct P; try (constructor; auto; fail).
  - apply p_made. apply roots. eauto.
  - eapply p_over; eauto. apply roots. eauto.
  - eapply p_src; eauto. apply roots. eauto.
  - apply roots in H as [es W]. now apply l_made with es.
  - eapply l_over; eauto.
  - eapply l_src; eauto.
Qed.

(** The script succeeds exactly when the directories fit. *)
Theorem C93_fused_exactly_when_they_fit : (exists t, main overlay src names = Some t) <-> fits overlay src names.
Proof.
  rewrite fits_all. split.
  - intros [t E]. exact (loop_conv (walk [] overlay) [] _ _ eq_refl start E).
  - intros F. destruct (loop_ok (walk [] overlay) [] _ eq_refl start F) as [t [E _]]. exists t. exact E.
Qed.
(** The links and directories it makes. *)
Theorem C93_links_and_directories : forall t, main overlay src names = Some t ->
  forall q m, t q = Some m <-> layout overlay src names q m.
Proof.
  intros t E q m. rewrite layout_part.
  destruct (loop_ok (walk [] overlay) [] _ eq_refl start) as [t' [E' I]].
  { exact (loop_conv (walk [] overlay) [] _ _ eq_refl start E). }
  unfold main in E. rewrite E' in E. injection E as <-. apply I.
Qed.
Lemma within_reaches : forall n q es, within n q (Dir es) -> reaches n q (Dir es).
Proof. intros n q es W. remember (Dir es) as m. induction W; subst; [constructor|]. apply r_in with n; auto. Qed.
(** Reading the result: the overlay first, the source for the rest. *)
Theorem C93_overlay_read_first : (exists es, overlay = Dir es) -> forall t, main overlay src names = Some t ->
  (forall p es x n es', within overlay p (Dir es) -> In (x, Link n) es -> ~ reaches n [] (Dir es')) ->
  forall q k, (forall x, In x names -> hd_error q <> Some x) ->
  (sees overlay src t q k <-> fused overlay src q k).
Proof.
  intros [es0 Ov] t E Plain q k Hd. assert (L := C93_links_and_directories t E). split.
  - intros S. destruct S as [q T|p r s m k T R K].
    + apply L in T. inversion T as [A|p x es W A| | |]; subst; [apply f_dir with es0; constructor|now apply f_dir with es].
    + apply L in T. inversion T as [A|p1 x es W A|x I A|p1 x es n W I N C A|p1 x es ses W I R' S C A]; subst.
      * rewrite <- app_assoc in *. cbn in *. assert (R' := reaches_unapp _ _ _ W Wo _ _ R). inversion R'; subst.
        assert (n0 = n). { eapply unique; eauto. assert (Wd := within_wf _ _ _ W Wo). now inversion Wd. } subst n0.
        apply f_over with es n m; auto. intros es' ->. apply N. exists es'. constructor.
      * rewrite <- app_assoc in *. cbn in *. eapply f_src; eauto.
  - intros F. destruct F as [q es W|p es x n r m k W I N R K|p es x r m k W N R K].
    + apply s_made. apply L. destruct q as [|a b] using rev_ind; [constructor|]. now apply l_made with es.
    + change (x :: r) with ([x] ++ r) in *. rewrite app_assoc in *. apply s_link with Overlay m; auto.
      * apply L. apply l_over with es n; auto.
        -- intros [es' R']. destruct n as [c|es1|n'|]; try (now inversion R'); [now apply (N es1)|].
           inversion R'; subst. eapply Plain; eauto.
        -- intros [-> In_]. apply (Hd x In_). auto.
      * rewrite <- app_assoc. apply (reaches_app _ _ _ W). now apply r_in with n.
    + assert (S : exists ses, reaches src p (Dir ses) /\ In x (map fst ses)).
      { assert (Fi : fits overlay src names) by (apply C93_fused_exactly_when_they_fit; eauto).
        destruct (fit_dirs _ _ _ Fi p es W) as [ses Rs]. exists ses. split; auto.
        clear -R Rs Ws. revert src Ws R Rs. induction p as [|a p IH]; intros n Wn R Rs; cbn in *.
        - apply follow_cons in R as [es [F R]]. apply follow_reaches in F. assert (D := reaches_fun _ _ _ _ Wn F Rs). injection D as <-.
          inversion R; subst. apply in_names. eauto.
        - apply follow_cons in R as [es [F R]]. apply follow_cons in Rs as [es' [F' Rs]]. rewrite F in F'. injection F' as <-.
          assert (Wd := follow_wf _ _ Wn F). inversion Wd as [| | |? ND Wc]; subst. inversion R; subst. inversion Rs; subst.
          assert (n1 = n0) by (eapply unique; eauto). subst. eauto. }
      destruct S as [ses [Rs Is]].
      change (x :: r) with ([x] ++ r) in *. rewrite app_assoc in *. apply s_link with Source m; auto.
      apply L. apply l_src with es ses; auto. intros [-> In_]. now apply (Hd x In_).
Qed.
End Main.

(** A link of the overlay to a directory is in neither place: the walk does not enter it, and the source's entry of that name
    is skipped, so that the name is missing from the result. *)
Theorem C93_linked_directory_refuted : exists overlay src t,
  main overlay src [] = Some t /\ fused overlay src ["d"; "f"] (AFile "new") /\ ~ sees overlay src t ["d"; "f"] (AFile "new") /\
  t ["d"] = None.
Proof.
  exists (Dir [("d", Link (Dir [("f", File "new")]))]), (Dir [("d", Dir [("f", File "old")])]). eexists.
  split; [reflexivity|]. assert (N : forall q, match q with [] => True | _ => before [] q = None end).
  { intros [|x [|y q]]; cbn; auto. }
  split; [|split; [|reflexivity]].
  - apply (f_over _ _ [] [("d", Link (Dir [("f", File "new")]))] "d" (Link (Dir [("f", File "new")])) ["f"] (File "new")).
    + constructor.
    + cbn; auto.
    + discriminate.
    + constructor. apply r_in with (File "new"); cbn; auto. constructor.
    + constructor.
  - intros S. inversion S as [|p r s m k T R K A]; subst. cbn in T.
    specialize (N p). destruct p; [cbn in T; discriminate|congruence].
Qed.

(** A build tree: the overlay adds a build file at the top and one in [lib], which shadows the source's. *)
Example C93_nonvacuous :
  let overlay := Dir [("BUILD", File "b0"); ("lib", Dir [("BUILD", File "b1")])] in
  let src := Dir [("lib", Dir [("BUILD", File "old"); ("a.cpp", File "a"); ("sub", Dir [("x", File "x")])]); ("docs", Dir [])] in
  fits overlay src ["WORKSPACE"] /\
  exists t, main overlay src ["WORKSPACE"] = Some t /\
    map t [["BUILD"]; ["lib"]; ["lib"; "BUILD"]; ["lib"; "a.cpp"]; ["lib"; "sub"]; ["lib"; "sub"; "x"]; ["docs"]; ["WORKSPACE"]; ["c"]] =
    [Some (Linked Overlay); Some Made; Some (Linked Overlay); Some (Linked Source); Some (Linked Source); None; Some (Linked Source); Some Old; None].
Proof.
  cbn zeta. split.
  - apply C93_fused_exactly_when_they_fit.
    + repeat (constructor; cbn; try (intuition congruence)).
      intros x n [[= <- <-]|[[= <- <-]|[]]]; [constructor|]. constructor; [repeat constructor; cbn; tauto|].
      intros x n [[= <- <-]|[]]. constructor.
    + constructor; [repeat constructor; cbn; intuition congruence|].
      intros x n [[= <- <-]|[[= <- <-]|[]]]; (constructor; [repeat constructor; cbn; intuition congruence|]).
      * intros x n [[= <- <-]|[[= <- <-]|[[= <- <-]|[]]]]; try constructor; [repeat constructor; cbn; tauto|].
        intros x n [[= <- <-]|[]]. constructor.
      * intros x n [].
    + eexists. reflexivity.
  - eexists. split; reflexivity.
Qed.

Print Assumptions C93_fused_exactly_when_they_fit.
Print Assumptions C93_links_and_directories.
Print Assumptions C93_overlay_read_first.
Print Assumptions C93_linked_directory_refuted.
