(** C22, C23, C25: ONNX graphs keep their meaning; arguments; subgraphs. *)
From Coq Require Import ZArith Lia Bool Ascii String Permutation List.
From Verif Require Import Prelude OnnxModel OnnxSpec.
Import ListNotations.
Open Scope string_scope.
Open Scope list_scope.

(** * Association lists *)
Lemma lookup_app {A} (l r : list (string * A)) k : lookup (l ++ r) k = match lookup l k with Some v => Some v | None => lookup r k end.
Proof. induction l as [|[x v] l IH]; cbn; [reflexivity|]. destruct (String.eqb x k); auto. Qed.
Lemma lookup_In {A} (l : list (string * A)) k v : lookup l k = Some v -> In (k, v) l.
Proof. induction l as [|[x w] l IH]; cbn; [discriminate|]. destruct (String.eqb_spec x k) as [->|]; [intros [= ->]; auto|auto]. Qed.
Lemma lookup_key {A} (l : list (string * A)) k : lookup l k <> None <-> In k (map fst l).
Proof.
  induction l as [|[x w] l IH]; cbn; [split; [congruence|intros []]|]. destruct (String.eqb_spec x k) as [->|N]; [split; [auto|discriminate]|]. rewrite IH. intuition.
Qed.
Lemma lookup_none {A} (l : list (string * A)) k : lookup l k = None <-> ~ In k (map fst l).
Proof. rewrite <- lookup_key. destruct (lookup l k); split; intros; congruence || (intros H'; congruence) || auto. exfalso. apply H. discriminate. Qed.
Lemma lookup_NoDup {A} (l : list (string * A)) k v : NoDup (map fst l) -> In (k, v) l -> lookup l k = Some v.
Proof.
  induction l as [|[x w] l IH]; cbn; intros N H; [destruct H|]. inversion N; subst. destruct H as [H|H].
  - injection H as -> ->. rewrite String.eqb_refl. reflexivity.
  - destruct (String.eqb_spec x k) as [->|]; [exfalso; apply H2; apply in_map_iff; exists (k, v); auto|auto].
Qed.
Lemma dict_set_keys {A} (d : list (string * A)) k v : map fst (dict_set d k v) = if existsb (String.eqb k) (map fst d) then map fst d else map fst d ++ [k].
Proof.
  induction d as [|[x w] d IH]; cbn; [reflexivity|]. rewrite (String.eqb_sym k x). destruct (String.eqb_spec x k) as [->|N]; cbn; [reflexivity|]. rewrite IH. destruct (existsb (String.eqb k) (map fst d)); reflexivity.
Qed.
Lemma dict_set_lookup {A} (d : list (string * A)) k v j : lookup (dict_set d k v) j = if String.eqb k j then Some v else lookup d j.
Proof.
  induction d as [|[x w] d IH]; cbn; [reflexivity|]. destruct (String.eqb_spec x k) as [->|N]; cbn.
  - destruct (String.eqb k j); reflexivity.
  - rewrite IH. destruct (String.eqb_spec x j) as [->|], (String.eqb_spec k j) as [->|]; congruence.
Qed.
Lemma dict_snoc {A} (l : list (string * A)) p : dict (l ++ [p]) = dict_set (dict l) (fst p) (snd p).
Proof. unfold dict. rewrite fold_left_app. reflexivity. Qed.
Lemma dict_lookup {A} (l : list (string * A)) k : lookup (dict l) k = lookup (rev l) k.
Proof.
  induction l as [|p l IH] using rev_ind; [reflexivity|]. rewrite dict_snoc, dict_set_lookup, rev_unit, IH. destruct p as [x v]. reflexivity.
Qed.
Lemma existsb_key k l : existsb (String.eqb k) l = true <-> In k l.
Proof. rewrite existsb_exists. split; [intros (x & I & E); apply String.eqb_eq in E; subst; exact I|intros I; exists k; split; [exact I|apply String.eqb_refl]]. Qed.
Lemma existsb_not k l : existsb (String.eqb k) l = false <-> ~ In k l.
Proof. rewrite <- existsb_key. destruct (existsb (String.eqb k) l); split; congruence. Qed.
Lemma once_In l k : In k (once l) <-> In k l.
Proof.
  induction l as [|x l IH]; cbn; [tauto|]. rewrite filter_In, IH. split; [intuition|]. intros [->|H]; [auto|]. destruct (String.eqb_spec k x) as [->|]; [auto|right; split; auto].
Qed.
Lemma once_snoc l k : once (l ++ [k]) = if existsb (String.eqb k) l then once l else once l ++ [k].
Proof.
  induction l as [|x l IH]; cbn; [reflexivity|]. rewrite IH. destruct (String.eqb_spec k x) as [->|N]; cbn.
  - destruct (existsb (String.eqb x) l) eqn:E; [reflexivity|]. rewrite filter_app. cbn. rewrite String.eqb_refl. cbn. rewrite app_nil_r. reflexivity.
  - destruct (existsb (String.eqb k) l); [reflexivity|]. rewrite filter_app. cbn. destruct (String.eqb_spec k x); [congruence|]. reflexivity.
Qed.
Lemma dict_keys {A} (l : list (string * A)) : map fst (dict l) = once (map fst l).
Proof.
  induction l as [|p l IH] using rev_ind; [reflexivity|]. rewrite dict_snoc, dict_set_keys, map_app, IH. cbn [map]. rewrite once_snoc.
  replace (existsb (String.eqb (fst p)) (once (map fst l))) with (existsb (String.eqb (fst p)) (map fst l)); [reflexivity|].
  apply eq_true_iff_eq. rewrite !existsb_key. symmetry. apply once_In.
Qed.
Lemma once_NoDup l : NoDup (once l).
Proof. induction l as [|x l IH]; cbn; constructor; [rewrite filter_In, String.eqb_refl; intros [_ [=]]|apply NoDup_filter; exact IH]. Qed.
Lemma once_id l : NoDup l -> once l = l.
Proof.
  induction l as [|x l IH]; intros N; [reflexivity|]. inversion N; subst. cbn. rewrite IH by assumption. f_equal. clear - H1. induction l as [|y l IH]; [reflexivity|]. cbn.
  destruct (String.eqb_spec y x) as [->|]; [exfalso; apply H1; left; reflexivity|]. cbn. f_equal. apply IH. intros I. apply H1. right. exact I.
Qed.
Lemma dict_NoDup {A} (l : list (string * A)) : NoDup (map fst l) -> dict l = l.
Proof.
  induction l as [|p l IH] using rev_ind; intros N; [reflexivity|]. rewrite map_app in N. cbn in N. rewrite dict_snoc, IH by (apply NoDup_remove_1 in N; rewrite app_nil_r in N; exact N).
  apply NoDup_remove_2 in N. rewrite app_nil_r in N. destruct p as [k v]. cbn in *. clear IH. induction l as [|[x w] l IH]; [reflexivity|]. cbn in *. destruct (String.eqb_spec x k) as [->|]; [exfalso; auto|].
  f_equal. auto.
Qed.
Lemma has_key_spec {A} (l : list (string * A)) k : has_key l k = existsb (String.eqb k) (map fst l).
Proof.
  unfold has_key. apply eq_true_iff_eq. rewrite existsb_key, <- lookup_key. destruct (lookup l k); split; congruence.
Qed.

(** * Sorting *)
Lemma sort_keys_by_name {A} (l : list (string * A)) : sort_keys (map fst l) = map fst (by_name l).
Proof.
  induction l as [|p l IH]; [reflexivity|]. change (sort_keys (map fst (p :: l))) with (insert_key (fst p) (sort_keys (map fst l))). change (by_name (p :: l)) with (insert_by_name p (by_name l)).
  rewrite IH. generalize (by_name l). intros m. induction m as [|q m IHm]; cbn; [reflexivity|]. destruct (String.leb (fst p) (fst q)); cbn; [reflexivity|]. rewrite IHm. reflexivity.
Qed.
Lemma by_name_perm {A} (l : list (string * A)) : Permutation (by_name l) l.
Proof.
  induction l as [|p l IH]; [constructor|]. change (by_name (p :: l)) with (insert_by_name p (by_name l)). transitivity (p :: by_name l); [|constructor; exact IH]. generalize (by_name l). intros m. induction m as [|q m IHm]; cbn; [constructor; constructor|].
  destruct (String.leb (fst p) (fst q)); [reflexivity|]. rewrite IHm. constructor.
Qed.
Lemma by_name_map {A B} (f : string * A -> B) (l : list (string * A)) : by_name (map (fun p => (fst p, f p)) l) = map (fun p => (fst p, f p)) (by_name l).
Proof.
  induction l as [|p l IH]; [reflexivity|]. cbn [map]. match goal with |- by_name (?x :: ?y) = _ => change (by_name (x :: y)) with (insert_by_name x (by_name y)) end. change (by_name (p :: l)) with (insert_by_name p (by_name l)). rewrite IH. generalize (by_name l). intros m. induction m as [|q m IHm]; cbn; [reflexivity|]. destruct (String.leb (fst p) (fst q)); cbn; [reflexivity|]. rewrite IHm. reflexivity.
Qed.
Lemma arrange_NoDup {A B} (f : string * A -> option B) (l : list (string * A)) : NoDup (map fst l) ->
  arrange (map (fun p => (fst p, f p)) l) = do bs <- mapM f (by_name l); Some (map Some bs).
Proof.
  intros N. unfold arrange. assert (K : map fst (map (fun p => (fst p, f p)) l) = map fst l) by (rewrite map_map; reflexivity).
  rewrite dict_NoDup by (rewrite K; exact N). rewrite K, sort_keys_by_name.
  assert (E : mapM (fun k => obind (lookup (map (fun p => (fst p, f p)) l) k) (fun b => b)) (map fst (by_name l)) = mapM f (by_name l)).
  { assert (I : forall p, In p (by_name l) -> In p l) by (intros p; apply Permutation_in, by_name_perm).
    induction (by_name l) as [|p m IH]; [reflexivity|]. cbn [map mapM]. rewrite IH by (intros q Q; apply I; right; exact Q).
    rewrite (lookup_NoDup _ (fst p) (f p)); [reflexivity|rewrite K; exact N|]. apply in_map_iff. exists p. split; [reflexivity|apply I; left; reflexivity]. }
  rewrite E. destruct (mapM f (by_name l)) as [bs|] eqn:M; cbn [obind]; [|reflexivity]. f_equal.
  rewrite map_length, (mapM_length _ _ _ _ _ M), (Permutation_length (by_name_perm l)), Nat.sub_diag. cbn. apply app_nil_r.
Qed.

(** * Induction on graphs *)
Section Induction.
  Context {D Op T : Type} (P : graph D Op T -> Prop).
  Definition node_all (n : node_ D Op (graph D Op T)) : Prop := match n with NConst _ _ _ => True | NOp _ _ _ _ subs => Forall (fun p => P (snd p)) subs end.
  Hypothesis step : forall i d ns o, Forall node_all ns -> P (Graph i d ns o).
  Fixpoint graph_induction (g : graph D Op T) {struct g} : P g :=
    match g with
    | Graph i d ns o => step i d ns o ((fix go (l : list (node_ D Op (graph D Op T))) : Forall node_all l :=
        match l with
        | [] => Forall_nil _
        | n :: r => Forall_cons n
            (match n return node_all n with
             | NConst _ _ _ => I
             | NOp _ _ _ _ subs => (fix gos (l : list (string * graph D Op T)) : Forall (fun p => P (snd p)) l :=
                 match l with [] => Forall_nil _ | p :: r => Forall_cons p (graph_induction (snd p)) (gos r) end) subs
             end) (go r)
        end) ns)
    end.
End Induction.

Ltac use H := match type of H with _ ?op ?vs _ = ?b => match goal with |- context [obind (?f op vs ?x) _] => replace (f op vs x) with b by (symmetry; exact H) end end.
Section C22.
Context {D Op T V : Type} (opsets : list string) (const : D -> V).
Notation val := (option V).
Context (sem : Op -> list val -> list (option (@closure V)) -> option (list val)).
Hypothesis sem_extensional : extensional sem.
Notation importA := (@import_all D Op T opsets).
Notation execO := (exec_ops const sem (exec_block const sem)).
Notation execB := (exec_block const sem).
Notation evalG := (@eval_graph D Op T V const sem).

Lemma exec_app l r e : execO (l ++ r) e = do e' <- execO l e; execO r e'.
Proof. revert e. induction l as [|o l IH]; intros e; [reflexivity|]. cbn [app exec_ops]. destruct (exec_op const sem execB e o); cbn [obind]; auto. Qed.
Lemma reg_app (l r : @regs V) k : reg (l ++ r) k = match reg l k with Some v => Some v | None => reg r k end.
Proof. induction l as [|[x v] l IH]; cbn; [reflexivity|]. destruct (Nat.eqb x k); auto. Qed.

Definition related (env : names) (e : @regs V) (s : @scope V) (next : nat) : Prop :=
  forall k, match lookup env k with
            | Some id => (id < next)%nat /\ reg e id = lookup s k /\ lookup s k <> None
            | None => lookup s k = None
            end.
Definition keeps (e e' : @regs V) (next : nat) : Prop := forall id, (id < next)%nat -> reg e' id = reg e id.
Lemma related_weaken env e s next e' next' : related env e s next -> keeps e e' next -> (next <= next')%nat -> related env e' s next'.
Proof. intros R K L k. specialize (R k). destruct (lookup env k); [|exact R]. destruct R as (A & B & C). split; [lia|]. split; [rewrite K; assumption|exact C]. Qed.
Lemma related_bind env e s next k v : related env e s next -> related ((k, next) :: env) ((next, v) :: e) ((k, v) :: s) (S next).
Proof.
  intros R j. cbn [lookup]. destruct (String.eqb k j).
  - split; [lia|]. cbn [reg]. rewrite Nat.eqb_refl. split; [reflexivity|discriminate].
  - specialize (R j). destruct (lookup env j); [|exact R]. destruct R as (A & B & C). split; [lia|]. cbn [reg]. replace (Nat.eqb next n) with false by (symmetry; apply Nat.eqb_neq; lia). auto.
Qed.
Lemma reg_seq_out (vs : list val) : forall next n id, (id < next)%nat -> reg (rev (combine (seq next n) vs)) id = None.
Proof.
  induction vs as [|v vs IH]; intros next n id L; [destruct n; reflexivity|]. destruct n as [|n]; [reflexivity|]. cbn [seq combine rev]. rewrite reg_app, IH by lia.
  cbn. replace (Nat.eqb next id) with false by (symmetry; apply Nat.eqb_neq; lia). reflexivity.
Qed.
Lemma keeps_seq (vs : list val) next n e : keeps e (rev (combine (seq next n) vs) ++ e) next.
Proof. intros id L. rewrite reg_app, reg_seq_out by exact L. reflexivity. Qed.

(** Binding of results and of block arguments. *)
Lemma related_outputs outs : forall vs env e s next, length vs = length outs -> related env e s next ->
  related (bind_outputs outs (seq next (length outs)) env) (rev (combine (seq next (length outs)) vs) ++ e) (bind_all outs vs s) (next + length outs).
Proof.
  induction outs as [|o outs IH]; intros [|v vs] env e s next L R; try discriminate.
  - cbn. replace (next + 0)%nat with next by lia. exact R.
  - cbn [length seq combine rev app]. unfold bind_outputs, bind_all. cbn [combine fold_left fst].
    rewrite <- app_assoc. cbn [app]. replace (next + S (length outs))%nat with (S next + length outs)%nat by lia.
    destruct (String.eqb o "").
    + apply IH; [cbn in L; lia|]. apply (related_weaken env e s next); [exact R| |lia]. intros id B. cbn. replace (Nat.eqb next id) with false by (symmetry; apply Nat.eqb_neq; lia). reflexivity.
    + apply IH; [cbn in L; lia|]. apply related_bind. exact R.
Qed.
Lemma args_lookup ns : forall (vs : list val) next k, length vs = length ns ->
  match lookup (rev (combine ns (seq next (length ns)))) k with
  | Some id => (next <= id < next + length ns)%nat /\ reg (rev (combine (seq next (length ns)) vs)) id = lookup (rev (combine ns vs)) k /\ lookup (rev (combine ns vs)) k <> None
  | None => lookup (rev (combine ns vs)) k = None
  end.
Proof.
  induction ns as [|n ns IH]; intros [|v vs] next k L; try discriminate; [reflexivity|]. cbn [length seq combine rev]. rewrite !lookup_app. cbn in L.
  specialize (IH vs (S next) k ltac:(lia)). destruct (lookup (rev (combine ns (seq (S next) (length ns)))) k) as [id|].
  - destruct IH as (B & A & C). split; [lia|]. rewrite reg_app. destruct (lookup (rev (combine ns vs)) k) as [w|]; [|congruence]. rewrite A. split; [reflexivity|discriminate].
  - rewrite IH. cbn [lookup]. destruct (String.eqb n k); [|reflexivity]. split; [lia|]. rewrite reg_app, reg_seq_out by lia. cbn. rewrite Nat.eqb_refl. split; [reflexivity|discriminate].
Qed.
Lemma args_keys (A : Type) ns : forall (vs : list A) k, length vs = length ns -> lookup (rev (combine ns vs)) k <> None <-> In k ns.
Proof.
  intros vs k L. rewrite lookup_key, map_rev, <- in_rev. revert vs L. induction ns as [|n ns IH]; intros [|v vs] L; try discriminate; [tauto|]. cbn in *. rewrite IH by lia. tauto.
Qed.
(** Block arguments of a subgraph, none of whose names is bound around it. *)
Lemma related_args ns (vs : list val) env e s next : length vs = length ns -> related env e s next -> (forall x, In x ns -> lookup env x = None) ->
  related (env ++ rev (combine ns (seq next (length ns)))) (rev (combine (seq next (length ns)) vs) ++ e) (rev (combine ns vs) ++ s) (next + length ns).
Proof.
  intros L R F k. rewrite !lookup_app. pose proof (args_lookup ns vs next k L) as A. specialize (R k). destruct (lookup env k) as [id|] eqn:E.
  - destruct R as (B & C & N). split; [lia|]. rewrite reg_app, reg_seq_out by exact B.
    destruct (lookup (rev (combine ns vs)) k) as [v|] eqn:X; [|auto]. exfalso. assert (I : In k ns) by (apply (args_keys _ ns vs k L); congruence). rewrite (F k I) in E. discriminate.
  - destruct (lookup (rev (combine ns (seq next (length ns)))) k) as [id|].
    + destruct A as (B & C & N). split; [lia|]. rewrite reg_app. destruct (lookup (rev (combine ns vs)) k) as [v|]; [|congruence]. rewrite C. split; [reflexivity|discriminate].
    + rewrite A. exact R.
Qed.
(** Initializers. *)
Lemma inits_run l : forall ops env next e s, related env e s next ->
  exists new env' e', import_inits l (ops, env, next) = (ops ++ new, env', (next + length l)%nat) /\ execO new e = Some e' /\
    related env' e' (rev (map (fun p => (fst p, Some (const (snd p)))) l) ++ s) (next + length l) /\ keeps e e' next /\ forall k, lookup env' k <> None <-> In k (map fst l) \/ lookup env k <> None.
Proof.
  induction l as [|[k d] l IH]; intros ops env next e s R.
  - exists [], env, e. cbn. rewrite app_nil_r, Nat.add_0_r. split; [reflexivity|]. split; [reflexivity|]. split; [exact R|]. split; [intros id B; reflexivity|]. intros k. tauto.
  - destruct (IH (ops ++ [IConst next d]) ((k, next) :: env) (S next) ((next, Some (const d)) :: e) ((k, Some (const d)) :: s)) as (new & env' & e' & I1 & X & R' & K & Q); [apply related_bind; exact R|].
    exists (IConst next d :: new), env', e'. split; [etransitivity; [exact I1|]; rewrite <- app_assoc; cbn [app length]; f_equal; lia|].
    split; [cbn [exec_ops exec_op obind]; exact X|]. split.
    + cbn [map rev fst snd length]. rewrite <- app_assoc. cbn [app]. replace (next + S (length l))%nat with (S next + length l)%nat by lia. exact R'.
    + split; [intros id B; rewrite K by lia; cbn; replace (Nat.eqb next id) with false by (symmetry; apply Nat.eqb_neq; lia); reflexivity|].
      intros j. rewrite Q. cbn [lookup map fst In]. destruct (String.eqb_spec k j) as [->|N]; [split; intros; [auto|right; discriminate]|]. intuition congruence.
Qed.
Definition bound_is (bound : list string) (env : names) : Prop := forall k, In k bound <-> lookup env k <> None.
Lemma lookup_bind_outputs outs : forall rs (env : names) k, length rs = length outs -> lookup (bind_outputs outs rs env) k <> None <-> In k (named outs) \/ lookup env k <> None.
Proof.
  induction outs as [|o outs IH]; intros [|r rs] env k L; try discriminate; [cbn; tauto|]. cbn in L. unfold bind_outputs. cbn [combine fold_left fst named filter].
  destruct (String.eqb_spec o "") as [->|N]; cbn [negb]; [apply IH; lia|]. change (fold_left _ _ _) with (bind_outputs outs rs ((o, r) :: env)). rewrite IH by lia. cbn [lookup In].
  destruct (String.eqb_spec o k) as [->|N']; [split; intros; [auto|right; discriminate]|]. unfold named. intuition congruence.
Qed.
Lemma mapM_inputs ins env e s next none : related env e s next -> reg e none = Some None ->
  forall vals, mapM (fun i => if String.eqb i "" then Some none else lookup env i) ins = Some vals ->
  mapM (reg e) vals = mapM (fun i => if String.eqb i "" then Some None else lookup s i) ins.
Proof.
  intros R NN. induction ins as [|i ins IH]; intros vals H; cbn [mapM] in H; [injection H as <-; reflexivity|].
  destruct (if String.eqb i "" then Some none else lookup env i) as [v|] eqn:E; cbn [obind] in H; [|discriminate].
  destruct (mapM (fun i => if String.eqb i "" then Some none else lookup env i) ins) as [vs|]; cbn [obind] in H; [|discriminate]. injection H as <-. cbn [mapM]. rewrite (IH vs eq_refl).
  replace (reg e v) with (if String.eqb i "" then Some None else lookup s i); [reflexivity|]. destruct (String.eqb i ""); [injection E as <-; auto|]. specialize (R i). rewrite E in R. symmetry. apply R.
Qed.
Definition faithful (g : graph D Op T) : Prop := forall env next e s bound ops outs, importA g env next = Some (ops, outs) ->
  related env e s next -> bound_is bound env -> unshadowed g bound -> (do e' <- execO ops e; mapM (reg e') outs) = evalG g s.
Lemma region_faithful g env next e s bound b : faithful g -> import_region importA env next g = Some b -> related env e s next -> bound_is bound env ->
  (forall x, In x (map fst (g_inputs g)) -> ~ In x bound) -> unshadowed g (map fst (g_inputs g) ++ bound) ->
  forall args, execB b e args = subgraph evalG s g args.
Proof.
  intros F I R B NS U args. unfold import_region in I. destruct (guard _) eqn:G; cbn [obind] in I; [|discriminate]. clear G.
  set (ns := map fst (g_inputs g)) in *. destruct (importA g _ _) as [[ops outs]|] eqn:E; cbn [obind] in I; [|discriminate]. injection I as <-.
  cbn [exec_block fst snd]. rewrite seq_length. unfold subgraph. fold ns. replace (length (g_inputs g)) with (length ns) by apply map_length.
  destruct (Nat.eqb_spec (length args) (length ns)) as [L|L]; cbn [guard obind]; [|reflexivity].
  refine (F _ _ _ _ (ns ++ bound) _ _ E _ _ U).
  - apply related_args; auto. intros x X. destruct (lookup env x) eqn:Y; [|reflexivity]. exfalso. apply (NS x X). apply B. congruence.
  - intros k. rewrite in_app_iff, lookup_app. specialize (B k). pose proof (args_keys nat ns (seq next (length ns)) k (seq_length _ _)) as Q.
    destruct (lookup env k); [split; [discriminate|intros _; right; apply B; discriminate]|]. rewrite Q. split; [intros [X|X]; [exact X|exfalso; apply B in X; congruence]|auto].
Qed.
Lemma unshadowed_subs (rec : graph D Op T -> list string -> Prop) bound subs :
  fold_right (fun p acc => ((forall x, In x (map fst (g_inputs (snd p))) -> ~ In x bound) /\ rec (snd p) (map fst (g_inputs (snd p)) ++ bound)) /\ acc) True subs <->
  forall p : string * graph D Op T, In p subs -> (forall x, In x (map fst (g_inputs (snd p))) -> ~ In x bound) /\ rec (snd p) (map fst (g_inputs (snd p)) ++ bound).
Proof.
  induction subs as [|q subs IH]; cbn; [split; [intros _ p []|auto]|]. rewrite IH. split; [intros [A B] p [<-|I]; auto|intros H; split; [apply H; auto|intros p I; apply H; auto]].
Qed.
Lemma nodes_prefix ns none : forall ops env next st', import_nodes opsets importA none ns (ops, env, next) = Some st' -> exists new env' next', st' = (ops ++ new, env', next').
Proof.
  induction ns as [|n ns IHn]; intros ops env next st' I; [injection I as <-; exists [], env, next; rewrite app_nil_r; reflexivity|]. cbn [import_nodes] in I. destruct (import_node _ _ _ _ n) as [st2|] eqn:E; cbn [obind] in I; [|discriminate].
  assert (X : exists o env' next', st2 = (ops ++ [o], env', next')).
  { destruct n as [outs1 iname d|domain op1 ins outs1 subs1]; cbn [import_node] in E.
    - destruct outs1 as [|? [|]]; try discriminate. injection E as <-. eauto.
    - destruct (mapM _ ins); cbn [obind] in E; [|discriminate]. destruct (guard _); cbn [obind] in E; [|discriminate]. destruct (arrange _); cbn [obind] in E; [|discriminate]. injection E as <-. eauto. }
  destruct X as (o & env' & next' & ->). destruct (IHn _ _ _ _ I) as (new & env2 & next2 & ->). exists (o :: new), env2, next2. rewrite <- app_assoc. reflexivity.
Qed.
Lemma nodes_faithful ns : forall bound ops env next e s none st', Forall (node_all faithful) ns ->
  import_nodes opsets importA none ns (ops, env, next) = Some st' -> related env e s next -> reg e none = Some None -> (none < next)%nat ->
  bound_is bound env -> unshadowed_nodes unshadowed ns bound ->
  exists new env' next', st' = (ops ++ new, env', next') /\
    match execO new e, eval_nodes const sem evalG ns s with
    | Some e', Some s' => related env' e' s' next'
    | None, None => True
    | _, _ => False
    end.
Proof.
  induction ns as [|n ns IH]; intros bound ops env next e s none st' F I R NN LN B U.
  - injection I as <-. exists [], env, next. rewrite app_nil_r. split; [reflexivity|]. exact R.
  - cbn [import_nodes] in I. destruct (import_node opsets importA none (ops, env, next) n) as [st1|] eqn:E; cbn [obind] in I; [|discriminate].
    destruct n as [outs iname d|domain op ins outs subs]; cbn [import_node] in E; cbn [eval_nodes eval_node unshadowed_nodes] in *.
    + destruct outs as [|out [|]]; try discriminate. injection E as <-. unfold init_name in I.
      destruct (IH (const_name out iname :: bound) _ _ _ ((next, Some (const d)) :: e) ((if String.eqb out "" then iname else out, Some (const d)) :: s) none st' (Forall_inv_tail F) I) as (new & env' & next' & -> & Q).
      * apply related_bind. exact R.
      * cbn. replace (Nat.eqb next none) with false by (symmetry; apply Nat.eqb_neq; lia). exact NN.
      * lia.
      * intros k. cbn [In lookup]. unfold const_name. destruct (String.eqb_spec (if String.eqb out "" then iname else out) k) as [->|N]; [split; [discriminate|auto]|]. rewrite <- (B k). tauto.
      * exact U.
      * exists (IConst next d :: new), env', next'. rewrite <- app_assoc. split; [reflexivity|]. cbn [exec_ops exec_op obind]. exact Q.
    + destruct (mapM _ ins) as [vals|] eqn:MI; cbn [obind] in E; [|discriminate]. destruct (guard _) eqn:GD; cbn [obind] in E; [|discriminate]. clear GD.
      destruct U as (ND & US & U). rewrite (arrange_NoDup (fun p => import_region importA env (next + length outs) (snd p)) subs ND) in E.
      destruct (mapM _ (by_name subs)) as [bs|] eqn:MB; cbn [obind] in E; [|discriminate]. injection E as <-.
      assert (SR : Forall2 same_region (map (option_map (fun b => execB b e)) (map Some bs)) (map (fun p => Some (snd p)) (by_name (map (fun p => (fst p, subgraph evalG s (snd p))) subs)))).
      { rewrite by_name_map, !map_map. cbn [option_map snd].
        assert (K : forall p, In p (by_name subs) -> faithful (snd p) /\ (forall x, In x (map fst (g_inputs (snd p))) -> ~ In x bound) /\ unshadowed (snd p) (map fst (g_inputs (snd p)) ++ bound)).
        { intros p P. apply (Permutation_in _ (by_name_perm subs)) in P. split; [|apply (proj1 (unshadowed_subs _ _ _) US p P)]. pose proof (Forall_inv F) as F0. cbn [node_all] in F0. rewrite Forall_forall in F0. apply (F0 p P). }
        clear - MB K R B. revert bs MB. induction (by_name subs) as [|p l IHl]; intros bs MB; cbn [mapM] in MB; [injection MB as <-; constructor|].
        destruct (import_region importA env (next + length outs) (snd p)) as [b|] eqn:E; cbn [obind] in MB; [|discriminate].
        destruct (mapM _ l) as [bs'|]; cbn [obind] in MB; [|discriminate]. injection MB as <-. cbn [map]. constructor; [|apply IHl; [intros q Q; apply K; right; exact Q|reflexivity]].
        destruct (K p (or_introl eq_refl)) as (F1 & F2 & F3). intros args. apply (region_faithful (snd p) env (next + length outs) e s bound b F1 E); auto. apply (related_weaken env e s next); [exact R|intros id L; reflexivity|lia]. }
      rewrite <- (mapM_inputs ins env e s next none R NN vals MI).
      destruct (mapM (reg e) vals) as [vs|] eqn:MV; cbn [obind].
      2:{ (* inputs are always bound *) exfalso. clear - MI MV R NN. revert vals MI MV. induction ins as [|i ins IHi]; intros vals MI MV; cbn [mapM] in MI; [injection MI as <-; discriminate|].
          destruct (if String.eqb i "" then Some none else lookup env i) as [v|] eqn:X; cbn [obind] in MI; [|discriminate]. destruct (mapM (fun i => if String.eqb i "" then Some none else lookup env i) ins) as [vs'|] eqn:Y; cbn [obind] in MI; [|discriminate]. injection MI as <-.
          cbn [mapM] in MV. assert (Z : reg e v <> None). { destruct (String.eqb i ""); [injection X as <-; congruence|]. specialize (R i). rewrite X in R. destruct R as (_ & E1 & E2). congruence. }
          destruct (reg e v); [|congruence]. cbn [obind] in MV. destruct (mapM (reg e) vs') eqn:W; [discriminate|]. apply (IHi vs' eq_refl W). }
      pose proof (sem_extensional op vs _ _ SR) as SE.
      destruct (sem op vs (map (fun p => Some (snd p)) (by_name (map (fun p => (fst p, subgraph evalG s (snd p))) subs)))) as [res|]; cbn [obind].
      * destruct (Nat.eqb_spec (length res) (length outs)) as [L|L]; cbn [guard obind].
        -- destruct (IH (named outs ++ bound) _ _ _ (rev (combine (seq next (length outs)) res) ++ e) (bind_all outs res s) none st' (Forall_inv_tail F) I) as (new & env' & next' & -> & Q).
           ++ apply related_outputs; assumption.
           ++ rewrite (keeps_seq res next (length outs) e none LN). exact NN.
           ++ lia.
           ++ intros k. rewrite in_app_iff, lookup_bind_outputs by apply seq_length. rewrite (B k). tauto.
           ++ exact U.
           ++ exists (IOp (seq next (length outs)) op vals (map Some bs) :: new), env', next'. rewrite <- app_assoc. split; [reflexivity|]. cbn [exec_ops exec_op]. rewrite MV. cbn [obind]. use SE. cbn [obind].
              rewrite seq_length, (proj2 (Nat.eqb_eq _ _) L). cbn [guard obind]. exact Q.
        -- assert (X : exists new env' next', st' = (ops ++ IOp (seq next (length outs)) op vals (map Some bs) :: new, env', next')).
           { destruct (nodes_prefix ns none _ _ _ _ I) as (new & env' & next' & ->). exists new, env', next'. rewrite <- app_assoc. reflexivity. }
           destruct X as (new & env' & next' & ->). exists (IOp (seq next (length outs)) op vals (map Some bs) :: new), env', next'. split; [reflexivity|]. cbn [exec_ops exec_op]. rewrite MV. cbn [obind]. use SE. cbn [obind].
           rewrite seq_length, (proj2 (Nat.eqb_neq _ _) L). cbn [guard obind]. exact Logic.I.
      * assert (X : exists new env' next', st' = (ops ++ IOp (seq next (length outs)) op vals (map Some bs) :: new, env', next')).
        { destruct (nodes_prefix ns none _ _ _ _ I) as (new & env' & next' & ->). exists new, env', next'. rewrite <- app_assoc. reflexivity. }
        destruct X as (new & env' & next' & ->). exists (IOp (seq next (length outs)) op vals (map Some bs) :: new), env', next'. split; [reflexivity|]. cbn [exec_ops exec_op]. rewrite MV. cbn [obind]. use SE. exact Logic.I.
Qed.
Lemma mapM_outputs outs env e s next : related env e s next -> forall rs, mapM (lookup env) outs = Some rs -> mapM (reg e) rs = mapM (lookup s) outs.
Proof.
  intros R. induction outs as [|o outs IH]; intros rs H; cbn [mapM] in H; [injection H as <-; reflexivity|]. destruct (lookup env o) as [r|] eqn:E; cbn [obind] in H; [|discriminate].
  destruct (mapM (lookup env) outs) as [rs'|]; cbn [obind] in H; [|discriminate]. injection H as <-. cbn [mapM]. rewrite (IH rs' eq_refl). specialize (R o). rewrite E in R. destruct R as (_ & -> & _). reflexivity.
Qed.
Lemma scope_ext_related env e s s' next : (forall k, lookup s k = lookup s' k) -> related env e s next -> related env e s' next.
Proof. intros E R k. specialize (R k). rewrite <- E. exact R. Qed.
Lemma graph_faithful g : faithful g.
Proof.
  induction g as [ins inits ns outs F] using graph_induction. intros env next e s bound ops rs I R B U. cbn [import_all] in I. cbn [unshadowed] in U. cbn [eval_graph].
  destruct (inits_run (dict inits) [] env next e s R) as (new & env1 & e1 & I1 & X1 & R1 & K1 & Q1). rewrite I1 in I. cbn [app] in I. set (n1 := (next + length (dict inits))%nat) in *.
  assert (R2 : related env1 e1 (rev (map (fun p => (fst p, Some (const (snd p)))) inits) ++ s) n1).
  { eapply scope_ext_related; [|exact R1]. intros k. rewrite !lookup_app, <- !map_rev.
    assert (M : forall l : list (string * D), lookup (map (fun p => (fst p, Some (const (snd p)))) l) k = option_map (fun d => Some (const d)) (lookup l k)) by (induction l as [|[x d] l IHl]; cbn; [reflexivity|]; destruct (String.eqb x k); auto).
    rewrite !M. replace (lookup (rev (dict inits)) k) with (lookup (rev inits) k); [reflexivity|]. rewrite <- !dict_lookup. rewrite (dict_NoDup (dict inits)) by (rewrite dict_keys; apply once_NoDup). reflexivity. }
  destruct (import_nodes opsets importA n1 ns (new ++ [INone n1], env1, S n1)) as [st'|] eqn:E; cbn [obind] in I; [|discriminate].
  destruct (nodes_faithful ns (map fst inits ++ bound) (new ++ [INone n1]) env1 (S n1) ((n1, None) :: e1) (rev (map (fun p => (fst p, Some (const (snd p)))) inits) ++ s) n1 st' F E) as (new2 & env2 & n2 & -> & Q2).
  - apply (related_weaken env1 e1 _ n1); [exact R2| |lia]. intros id L. cbn. replace (Nat.eqb n1 id) with false by (symmetry; apply Nat.eqb_neq; lia). reflexivity.
  - cbn. rewrite Nat.eqb_refl. reflexivity.
  - lia.
  - intros k. rewrite in_app_iff, (B k), Q1, dict_keys, once_In. reflexivity.
  - exact U.
  - destruct (mapM (lookup env2) outs) as [rs'|] eqn:MO; cbn [obind] in I; [|discriminate]. injection I as <- <-. rewrite !exec_app, X1. cbn [obind exec_ops exec_op].
    destruct (execO new2 ((n1, None) :: e1)) as [e2|], (eval_nodes const sem evalG ns _) as [s2|]; try contradiction; cbn [obind]; [|reflexivity]. apply (mapM_outputs outs env2 e2 s2 n2 Q2 rs' MO).
Qed.

(** * Main graphs *)
Lemma input_map_keys elide g inputs : @input_map D Op T elide g = Some inputs -> map fst inputs = arguments g.
Proof.
  unfold input_map, arguments. rewrite <- dict_keys.
  assert (M : forall l : list (string * T), map fst (filter (fun p => negb (has_key (g_inits g) (fst p))) l) = filter (fun k => negb (existsb (String.eqb k) (map fst (g_inits g)))) (map fst l)).
  { induction l as [|p l IH]; [reflexivity|]. cbn [filter map]. rewrite has_key_spec. destruct (existsb _ (map fst (g_inits g))); cbn [negb map]; rewrite IH; reflexivity. }
  destruct elide; [intros [= <-]; apply M|]. unfold guard. destruct (forallb _ (dict (g_inputs g))) eqn:E; cbn [obind]; [|discriminate]. intros [= <-]. rewrite <- M. f_equal.
  symmetry. clear M. induction (dict (g_inputs g)) as [|p l IH]; [reflexivity|]. cbn [forallb filter] in *. apply andb_prop in E as [E1 E2]. rewrite E1, IH by exact E2. reflexivity.
Qed.
(** C22: the emitted function computes what the graph computes, for every meaning of the operators. *)
Theorem C22_import_preserves_meaning elide (g : graph D Op T) inputs b : import_main opsets elide g = Some (inputs, b) -> unshadowed g (arguments g) ->
  forall args, execB b [] args = eval_main const sem g args.
Proof.
  intros H U args. unfold import_main in H. destruct (input_map elide g) as [ins|] eqn:IM; cbn [obind] in H; [|discriminate]. pose proof (input_map_keys elide g ins IM) as K.
  rewrite K in H. destruct (importA g _ _) as [[ops outs]|] eqn:E; cbn [obind] in H; [|discriminate]. injection H as <- <-. cbn [exec_block fst snd]. unfold eval_main.
  assert (L0 : length ins = length (arguments g)) by (rewrite <- K; symmetry; apply map_length). rewrite seq_length, L0.
  destruct (Nat.eqb_spec (length args) (length (arguments g))) as [L|L]; cbn [guard obind]; [|reflexivity].
  rewrite L0 in E. rewrite app_nil_r. refine (graph_faithful g _ _ _ _ (arguments g) _ _ E _ _ U).
  - pose proof (related_args (arguments g) args [] [] [] 0 L) as R. cbn [app Nat.add] in R. rewrite !app_nil_r in R. apply R; [intros k; reflexivity|reflexivity].
  - intros k. symmetry. apply args_keys. apply seq_length.
Qed.

(** * When importing succeeds *)
Definition succeeds (g : graph D Op T) : Prop := forall env next bound, bound_is bound env -> unshadowed g bound ->
  ((exists r, importA g env next = Some r) <-> well_scoped opsets g bound).
Lemma mapM_some {A B} (f : A -> option B) l : (exists r, mapM f l = Some r) <-> forall x, In x l -> f x <> None.
Proof.
  induction l as [|a l IH]; cbn [mapM]; [split; [intros _ x []|eauto]|]. split.
  - intros [r H] x [<-|I]; destruct (f a); try discriminate; cbn [obind] in H. destruct (mapM f l); [|discriminate]. apply IH; eauto.
  - intros H. pose proof (H a (or_introl eq_refl)) as Ha. destruct (f a); [|congruence]. destruct (proj2 IH (fun x I => H x (or_intror I))) as [r ->]. cbn. eauto.
Qed.
Lemma bound_cons k id bound env : bound_is bound env -> bound_is (k :: bound) ((k, id) :: env).
Proof. intros B j. cbn [In lookup]. destruct (String.eqb_spec k j) as [->|N]; [split; [discriminate|auto]|]. rewrite <- (B j). tauto. Qed.
Lemma inits_bound l : forall ops (env : names) next bound, bound_is bound env ->
  let '(_, env', _) := import_inits (D:=D) (Op:=Op) l (ops, env, next) in bound_is (rev (map fst l) ++ bound) env'.
Proof.
  induction l as [|[k d] l IH]; intros ops env next bound B; [exact B|]. specialize (IH (ops ++ [IConst next d]) ((k, next) :: env) (S next) (k :: bound) (bound_cons k next bound env B)).
  change (import_inits ((k, d) :: l) (ops, env, next)) with (import_inits l (ops ++ [IConst next d], (k, next) :: env, S next)). cbn [map rev fst].
  destruct (import_inits l _) as [[o e] n]. intros j. rewrite <- (IH j). rewrite <- app_assoc. reflexivity.
Qed.
Lemma region_succeeds (g : graph D Op T) env next bound : succeeds g -> bound_is bound env -> unshadowed g (map fst (g_inputs g) ++ bound) ->
  (import_region importA env next g <> None <->
   (forall x, In x (map fst (g_inputs g)) -> ~ In x (map fst (g_inits g))) /\ well_scoped opsets g (map fst (g_inputs g) ++ bound)).
Proof.
  intros S1 B U. unfold import_region. set (ns := map fst (g_inputs g)) in *.
  assert (B' : bound_is (ns ++ bound) (env ++ rev (combine ns (seq next (length ns))))).
  { intros k. rewrite in_app_iff, lookup_app. specialize (B k). pose proof (args_keys nat ns (seq next (length ns)) k (seq_length _ _)) as Q.
    destruct (lookup env k); [split; [discriminate|intros _; right; apply B; discriminate]|]. rewrite Q. split; [intros [X|X]; [exact X|exfalso; apply B in X; congruence]|auto]. }
  specialize (S1 _ (next + length ns)%nat _ B' U). rewrite <- S1.
  assert (G : forallb (fun k => negb (has_key (g_inits g) k)) ns = true <-> forall x, In x ns -> ~ In x (map fst (g_inits g))).
  { rewrite forallb_forall. split; intros H x X; specialize (H x X); rewrite has_key_spec in *; [rewrite negb_true_iff in H; apply existsb_not; exact H|apply negb_true_iff, existsb_not; exact H]. }
  unfold guard. destruct (forallb _ ns) eqn:F; cbn [obind].
  - destruct (importA g _ _) as [[ops outs]|]; cbn [obind]; split; try congruence; [intros _; split; [apply G; reflexivity|eauto]|intros [_ [r [=]]]].
  - split; [congruence|]. intros [X _]. apply G in X. discriminate.
Qed.
Lemma scoped_subs (rec : graph D Op T -> list string -> Prop) bound subs :
  fold_right (fun p acc => ((forall x, In x (map fst (g_inputs (snd p))) -> ~ In x (map fst (g_inits (snd p)))) /\ rec (snd p) (map fst (g_inputs (snd p)) ++ bound)) /\ acc) True subs <->
  forall p : string * graph D Op T, In p subs -> (forall x, In x (map fst (g_inputs (snd p))) -> ~ In x (map fst (g_inits (snd p)))) /\ rec (snd p) (map fst (g_inputs (snd p)) ++ bound).
Proof.
  induction subs as [|q subs IH]; cbn; [split; [intros _ p []|auto]|]. rewrite IH. split; [intros [A B] p [<-|I]; auto|intros H; split; [apply H; auto|intros p I; apply H; auto]].
Qed.
Lemma nodes_scoped ns : forall bound ops env next none, Forall (node_all succeeds) ns -> bound_is bound env -> unshadowed_nodes unshadowed ns bound ->
  match import_nodes opsets importA none ns (ops, env, next) with
  | Some (_, env', _) => exists after, scoped_nodes opsets (well_scoped opsets) ns bound (Some after) /\ bound_is after env'
  | None => forall after, ~ scoped_nodes opsets (well_scoped opsets) ns bound (Some after)
  end.
Proof.
  induction ns as [|n ns IH]; intros bound ops env next none F B U; cbn [import_nodes]; [exists bound; split; [reflexivity|exact B]|].
  destruct n as [outs iname d|domain op ins outs subs]; cbn [import_node scoped_nodes unshadowed_nodes] in *.
  - destruct outs as [|out [|out' outs]]; cbn [obind]; try (intros after (o & [=] & _)).
    specialize (IH (const_name out iname :: bound) (ops ++ [IConst next d]) ((init_name out iname, next) :: env) (S next) none (Forall_inv_tail F) (bound_cons _ _ _ _ B) U).
    destruct (import_nodes _ _ _ ns _) as [[[ops' env'] next']|]; [destruct IH as (after & A & B'); exists after; split; [exists out; auto|exact B']|]. intros after (o & [= <-] & X). exact (IH after X).
  - destruct U as (ND & US & U). rewrite (arrange_NoDup (fun p => import_region importA env (next + length outs) (snd p)) subs ND).
    pose proof (mapM_some (fun i => if String.eqb i "" then Some none else lookup env i) ins) as MI.
    assert (HI : (forall i, In i ins -> (if String.eqb i "" then Some none else lookup env i) <> None) <-> forall i, In i ins -> i = "" \/ In i bound).
    { split; intros H i I; specialize (H i I); destruct (String.eqb_spec i ""); auto; try discriminate; [right; apply B; exact H|destruct H as [H|H]; [contradiction|apply B; exact H]]. }
    destruct (mapM (fun i => if String.eqb i "" then Some none else lookup env i) ins) as [vals|]; cbn [obind].
    2:{ intros after (A & _). destruct (proj2 MI (proj2 HI A)) as [r [=]]. }
    assert (HI' := proj1 HI (proj1 MI (ex_intro _ vals eq_refl))). unfold guard. destruct (existsb (String.eqb domain) opsets) eqn:ED; cbn [obind].
    2:{ intros after (_ & A & _). apply existsb_not in ED. contradiction. }
    apply existsb_key in ED. pose proof (mapM_some (fun p => import_region importA env (next + length outs) (snd p)) (by_name subs)) as MS.
    assert (HS : (forall p, In p (by_name subs) -> import_region importA env (next + length outs) (snd p) <> None) <->
      forall p, In p subs -> (forall x, In x (map fst (g_inputs (snd p))) -> ~ In x (map fst (g_inits (snd p)))) /\ well_scoped opsets (snd p) (map fst (g_inputs (snd p)) ++ bound)).
    { pose proof (Forall_inv F) as F0. cbn [node_all] in F0. rewrite Forall_forall in F0. pose proof (proj1 (unshadowed_subs _ _ _) US) as U0.
      split; intros H p P.
      - apply region_succeeds with (env := env) (next := (next + length outs)%nat); [apply F0; exact P|exact B|apply (U0 p P)|]. apply H. apply (Permutation_in _ (Permutation_sym (by_name_perm subs)) P).
      - apply (Permutation_in _ (by_name_perm subs)) in P. apply region_succeeds with (bound := bound); [apply F0; exact P|exact B|apply (U0 p P)|]. apply H. exact P. }
    destruct (mapM (fun p => import_region importA env (next + length outs) (snd p)) (by_name subs)) as [bs|]; cbn [obind].
    2:{ intros after (_ & _ & A & _). destruct (proj2 MS (proj2 HS (proj1 (scoped_subs (well_scoped opsets) bound subs) A))) as [r [=]]. }
    assert (HS' := proj1 HS (proj1 MS (ex_intro _ bs eq_refl))).
    assert (B' : bound_is (named outs ++ bound) (bind_outputs outs (seq next (length outs)) env)).
    { intros k. rewrite in_app_iff, lookup_bind_outputs by apply seq_length. rewrite (B k). tauto. }
    specialize (IH (named outs ++ bound) (ops ++ [IOp (seq next (length outs)) op vals (map Some bs)]) _ (next + length outs)%nat none (Forall_inv_tail F) B' U).
    destruct (import_nodes _ _ _ ns _) as [[[ops' env'] next']|].
    + destruct IH as (after & A & B''). exists after. split; [|exact B'']. split; [exact HI'|]. split; [exact ED|]. split; [apply (proj2 (scoped_subs (well_scoped opsets) bound subs)); exact HS'|exact A].
    + intros after (_ & _ & _ & A). exact (IH after A).
Qed.
Lemma scoped_unique ns : forall bound a b, scoped_nodes opsets (well_scoped (T:=T) opsets) ns bound (Some a) -> scoped_nodes (D:=D) (Op:=Op) opsets (well_scoped opsets) ns bound (Some b) -> a = b.
Proof.
  induction ns as [|n ns IH]; intros bound a b A B; cbn [scoped_nodes] in *; [congruence|]. destruct n as [outs iname d|domain op ins outs subs].
  - destruct A as (o & -> & A), B as (o' & [= <-] & B). eauto.
  - destruct A as (_ & _ & _ & A), B as (_ & _ & _ & B). eauto.
Qed.
Lemma graph_succeeds g : succeeds g.
Proof.
  induction g as [ins inits ns outs F] using graph_induction. intros env next bound B U. cbn [import_all well_scoped unshadowed] in *.
  pose proof (inits_bound (dict inits) [] env next bound B) as B1. destruct (import_inits (dict inits) ([], env, next)) as [[ops env1] next1].
  assert (B2 : bound_is (map fst inits ++ bound) env1) by (intros k; rewrite <- (B1 k), !in_app_iff, <- in_rev, dict_keys, once_In; reflexivity).
  pose proof (nodes_scoped ns (map fst inits ++ bound) (ops ++ [INone next1]) env1 (S next1) next1 F B2 U) as N.
  destruct (import_nodes opsets importA next1 ns _) as [[[ops' env'] next']|]; cbn [obind].
  - destruct N as (after & A & B3). pose proof (mapM_some (lookup env') outs) as M. split.
    + intros [r H]. exists after. split; [exact A|]. destruct (mapM (lookup env') outs); [|discriminate]. intros o I. apply B3. apply M; eauto.
    + intros (after' & A' & H). rewrite (scoped_unique ns _ _ _ A' A) in H. destruct (proj2 M) as [r ->]; [|cbn; eauto]. intros o I. apply B3. apply H. exact I.
  - split; [intros [r [=]]|]. intros (after & A & _). exfalso. exact (N after A).
Qed.
(** C22: a graph is imported exactly when every name is bound before it is used, every domain is imported, and, if
    inputs with an initializer are not elided, there is none. *)
Theorem C22_when_imported elide (g : graph D Op T) : unshadowed g (arguments g) ->
  ((exists r, import_main opsets elide g = Some r) <->
   (elide = false -> forall k, In k (map fst (g_inputs g)) -> ~ In k (map fst (g_inits g))) /\ well_scoped opsets g (arguments g)).
Proof.
  intros U. unfold import_main.
  assert (IM : (exists ins, @input_map D Op T elide g = Some ins) <-> (elide = false -> forall k, In k (map fst (g_inputs g)) -> ~ In k (map fst (g_inits g)))).
  { unfold input_map. destruct elide; [split; [discriminate|eauto]|]. unfold guard. destruct (forallb _ (dict (g_inputs g))) eqn:E; cbn [obind].
    - split; [|eauto]. intros _ _ k I. rewrite forallb_forall in E. rewrite <- once_In, <- dict_keys in I. apply in_map_iff in I as (p & <- & P). specialize (E p P). rewrite has_key_spec in E. apply negb_true_iff in E. apply existsb_not. exact E.
    - split; [intros [r [=]]|]. intros H. exfalso. specialize (H eq_refl). assert (X : forallb (fun p : string * T => negb (has_key (g_inits g) (fst p))) (dict (g_inputs g)) = true); [|congruence].
      apply forallb_forall. intros p P. rewrite has_key_spec. apply negb_true_iff, existsb_not. apply H. rewrite <- once_In, <- dict_keys. apply in_map. exact P. }
  rewrite <- IM. destruct (input_map elide g) as [ins|] eqn:E; cbn [obind].
  - rewrite (input_map_keys elide g ins E). assert (L : length ins = length (arguments g)) by (rewrite <- (input_map_keys elide g ins E); symmetry; apply map_length). rewrite L.
    assert (B : bound_is (arguments g) (rev (combine (arguments g) (seq 0 (length (arguments g)))))) by (intros k; symmetry; apply args_keys; apply seq_length).
    rewrite <- (graph_succeeds g _ (length (arguments g)) _ B U). split.
    + intros [r H]. split; [eauto|]. destruct (importA g _ _); [eauto|discriminate].
    + intros [_ [r ->]]. cbn. eauto.
  - split; [intros [r [=]]|intros [[r [=]] _]].
Qed.

(** C23: the arguments are the declared inputs without an initializer, in order of declaration, each once and with the
    type of its last declaration. *)
Theorem C23_arguments elide (g : graph D Op T) inputs b : import_main opsets elide g = Some (inputs, b) ->
  map fst inputs = arguments g /\ (forall k t, In (k, t) inputs -> lookup (rev (g_inputs g)) k = Some t) /\
  exists ops outs, b = Block (seq 0 (length (arguments g))) ops outs.
Proof.
  unfold import_main. destruct (input_map elide g) as [ins|] eqn:IM; cbn [obind]; [|discriminate]. pose proof (input_map_keys elide g ins IM) as K.
  destruct (importA g _ _) as [[ops outs]|]; cbn [obind]; [|discriminate]. intros [= <- <-]. split; [exact K|]. split.
  - intros k t I. rewrite <- dict_lookup. apply lookup_NoDup; [rewrite dict_keys; apply once_NoDup|]. unfold input_map in IM. destruct elide.
    + injection IM as <-. apply filter_In in I. apply I.
    + unfold guard in IM. destruct (forallb _ (dict (g_inputs g))); cbn [obind] in IM; [|discriminate]. injection IM as <-. exact I.
  - rewrite <- K, map_length. cbn. eauto.
Qed.
Lemma bind_all_other outs : forall vs (s : @scope V) k, ~ In k (named outs) -> lookup (bind_all outs vs s) k = lookup s k.
Proof.
  induction outs as [|o outs IH]; intros [|v vs] s k N; try reflexivity. unfold bind_all. cbn [combine fold_left fst]. cbn [named filter] in N. destruct (String.eqb_spec o "") as [->|]; cbn [negb] in N; [apply IH; exact N|].
  cbn [In] in N. change (fold_left _ _ _) with (bind_all outs vs ((o, v) :: s)). rewrite IH by (intros X; apply N; right; exact X). cbn [lookup]. destruct (String.eqb_spec o k); [exfalso; apply N; left; assumption|reflexivity].
Qed.
(** Names bound by nodes. *)
Definition produced (n : node_ D Op (graph D Op T)) : list string :=
  match n with NConst outs iname _ => map (fun o => const_name o iname) outs | NOp _ _ _ outs _ => named outs end.
Lemma eval_other ns : forall s s' k, eval_nodes const sem evalG ns s = Some s' -> ~ In k (flat_map produced ns) -> lookup s' k = lookup s k.
Proof.
  induction ns as [|n ns IH]; intros s s' k E N; [injection E as <-; reflexivity|]. cbn [eval_nodes flat_map] in *. destruct (eval_node const sem evalG s n) as [s1|] eqn:E1; cbn [obind] in E; [|discriminate].
  rewrite in_app_iff in N. rewrite (IH s1 s' k E) by tauto. destruct n as [outs iname d|domain op ins outs subs]; cbn [eval_node produced] in *.
  - destruct outs as [|o [|]]; try discriminate. injection E1 as <-. cbn [lookup]. destruct (String.eqb_spec (if String.eqb o "" then iname else o) k) as [X|]; [exfalso; apply N; left; left; exact X|reflexivity].
  - destruct (mapM _ ins); cbn [obind] in E1; [|discriminate]. destruct (sem _ _ _); cbn [obind] in E1; [|discriminate]. destruct (guard _); cbn [obind] in E1; [|discriminate]. injection E1 as <-. apply bind_all_other. tauto.
Qed.
(** C23: a name with an initializer that no node redefines has the value of its (last) initializer, whether or not it
    is also declared as an input. *)
Theorem C23_initialized_values elide (g : graph D Op T) inputs b args res i k d : import_main opsets elide g = Some (inputs, b) -> unshadowed g (arguments g) ->
  execB b [] args = Some res -> nth_error (g_outputs g) i = Some k -> lookup (rev (g_inits g)) k = Some d -> ~ In k (flat_map produced (g_nodes g)) ->
  nth_error res i = Some (Some (const d)).
Proof.
  intros H U X O L N. rewrite (C22_import_preserves_meaning elide g inputs b H U) in X. unfold eval_main in X. destruct (guard _); cbn [obind] in X; [|discriminate].
  destruct g as [ins inits ns outs]. cbn [g_outputs g_inits g_nodes eval_graph] in *. destruct (eval_nodes const sem evalG ns _) as [s'|] eqn:E; cbn [obind] in X; [|discriminate].
  apply mapM_Forall2 in X. assert (Y : nth_error res i = lookup s' k).
  { clear - X O. revert i O. induction X as [|o r outs res A _ IH]; intros [|i] O; try discriminate; [injection O as ->; symmetry; exact A|apply (IH i O)]. }
  rewrite Y, (eval_other ns _ _ k E N), lookup_app, <- map_rev.
  assert (M : forall l : list (string * D), lookup (map (fun p => (fst p, Some (const (snd p)))) l) k = option_map (fun d => Some (const d)) (lookup l k)) by (induction l as [|[x w] l IHl]; cbn; [reflexivity|]; destruct (String.eqb x k); auto).
  rewrite M, L. reflexivity.
Qed.
End C22.

(** * Examples *)
(** An operator [add], and [if] with two branches. *)
Inductive op_ := OAdd | OIf.
Definition run_op (o : op_) (vs : list (option Z)) (rs : list (option (@closure Z))) : option (list (option Z)) :=
  match o, vs, rs with
  | OAdd, [Some a; Some b], _ => Some [Some (a + b)%Z]
  | OAdd, [Some a; None], _ => Some [Some a]
  | OIf, [Some c], [Some els; Some thn] => if Z.eqb c 0 then els [] else thn []
  | OIf, [Some c; Some x], [Some els; Some thn] => if Z.eqb c 0 then els [Some x] else thn [Some x]
  | _, _, _ => None
  end.
Lemma run_op_extensional : extensional run_op.
Proof.
  intros o vs rs rs' H. destruct o; cbn; destruct vs as [|[a|] [|[b|] [|]]]; try reflexivity;
    (destruct H as [|x y l l' A [|x' y' m m' A' [|]]]; try reflexivity; destruct x as [f|], y as [g|]; try contradiction; try reflexivity; destruct x' as [f'|], y' as [g'|]; try contradiction; try reflexivity;
     cbn in A, A'; destruct (Z.eqb a 0); auto).
Qed.
(** [x] has an initializer and is elided; the branches use [y] of the enclosing graph. *)
Definition branch (out : string) (ns : list (node_ Z op_ (graph Z op_ unit))) : graph Z op_ unit := Graph [] [] ns [out].
Definition sample : graph Z op_ unit :=
  Graph [("x", tt); ("y", tt)] [("x", 10%Z)]
    [NOp "" OAdd ["x"; ""] ["z"] [];
     NOp "" OIf ["y"] ["w"] [("then_branch", branch "t" [NOp "" OAdd ["z"; "y"] ["t"] []]); ("else_branch", branch "z" [NConst ["z"] "" 5%Z])]]
    ["w"; "z"].
Example C22_nonvacuous : exists b, import_main [""] true sample = Some ([("y", tt)], b) /\ unshadowed sample (arguments sample) /\
  exec_block (fun z => z) run_op b [] [Some 3%Z] = Some [Some 13%Z; Some 10%Z] /\ exec_block (fun z => z) run_op b [] [Some 0%Z] = Some [Some 5%Z; Some 10%Z].
Proof.
  eexists. split; [reflexivity|]. split; [|split; reflexivity]. cbn. repeat split; repeat constructor; cbn; intuition discriminate.
Qed.
(** C25: an input of a subgraph does not hide a name of the enclosing graph: the branch adds the outer [y] to itself. *)
Definition shadowing : graph Z op_ unit :=
  Graph [("c", tt); ("y", tt); ("v", tt)] []
    [NOp "" OIf ["c"; "v"] ["w"] [("then_branch", Graph [("y", tt)] [] [NOp "" OAdd ["y"; "y"] ["t"] []] ["t"]); ("else_branch", Graph [("q", tt)] [] [] ["q"])]]
    ["w"].
Theorem C25_input_does_not_shadow_refuted : exists b, import_main [""] true shadowing = Some ([("c", tt); ("y", tt); ("v", tt)], b) /\
  eval_main (fun z => z) run_op shadowing [Some 1%Z; Some 100%Z; Some 7%Z] = Some [Some 14%Z] /\
  exec_block (fun z => z) run_op b [] [Some 1%Z; Some 100%Z; Some 7%Z] = Some [Some 200%Z].
Proof. eexists. split; [reflexivity|]. split; reflexivity. Qed.
(** C25: if no input of a subgraph has the name of a value around it, names in subgraphs mean what ONNX says: values of
    the subgraph hide those around it, and the others are visible. *)
Theorem C25_subgraph_names_partial {D Op T V} opsets (const : D -> V) sem : extensional sem -> forall (g : graph D Op T) env next e s bound b,
  import_region (import_all opsets) env next g = Some b -> related env e s next -> bound_is bound env ->
  (forall x, In x (map fst (g_inputs g)) -> ~ In x bound) -> unshadowed g (map fst (g_inputs g) ++ bound) ->
  forall args, exec_block const sem b e args = subgraph (eval_graph const sem) s g args.
Proof. intros X g env next e s bound b I R B N U. apply (region_faithful opsets const sem g env next e s bound b); auto. apply graph_faithful. exact X. Qed.

Print Assumptions C22_import_preserves_meaning.
Print Assumptions C22_when_imported.
Print Assumptions C23_initialized_values.
Print Assumptions C25_subgraph_names_partial.
