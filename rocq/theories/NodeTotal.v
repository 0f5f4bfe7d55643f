(** Lemmas for C121: the graphs that can be imported. *)
From Coq Require Import ZArith Bool String Lia List.
From Verif Require Import Prelude DtypeModel TypesModel JitTypesModel JitTypesSpec JitTypesProps NodeModel NodeSpec NodeProofs NodeShape NodeScope.
From Verif Require RegistryModel.
Import ListNotations.
Open Scope string_scope.
Open Scope list_scope.
Open Scope nat_scope.

Definition ctx (st : state) : context := map (fun p => (fst p, snd (snd p))) (value_map st).
Lemma ctx_keys st : map fst (ctx st) = map fst (value_map st).
Proof. unfold ctx. rewrite map_map. reflexivity. Qed.
Lemma in_ctx st j t : In (j, t) (ctx st) <-> exists v, In (j, v) (value_map st) /\ snd v = t.
Proof.
  unfold ctx. rewrite in_map_iff. split.
  - intros ([k v] & E & K). injection E as <- <-. eauto.
  - intros (v & K & <-). exists (j, v). auto.
Qed.
Lemma ctx_same st st' : value_map st' = value_map st -> ctx st' = ctx st.
Proof. intros E. unfold ctx. now rewrite E. Qed.
Lemma find_iff st j v : ok st -> find_value st j = Some v <-> In (j, v) (value_map st).
Proof.
  intros O. split; [apply find_value_some|]. intros K. destruct (find_value st j) as [u|] eqn:F; [|now apply (proj1 (find_value_none st j) F) in K]. apply find_value_some in F. now rewrite (nodup_key _ _ _ _ (ok_keys st O) F K).
Qed.
Lemma uses_lookup st ins : ok st -> forall us, (exists vs, lookup_values st ins = Some vs /\ map snd vs = us) <-> uses (ctx st) ins us.
Proof.
  intros O. induction ins as [|j ins IH]; intros us; cbn [lookup_values].
  - split; [intros (vs & E & <-); injection E as <-; constructor|intros U; inversion U; subst; now exists []].
  - unfold obind. split.
    + intros (vs & E & <-). destruct (find_value st j) as [v|] eqn:F; [|discriminate]. destruct (lookup_values st ins) as [ws|] eqn:L; [|discriminate]. injection E as <-. cbn. constructor; [apply in_ctx; exists v; split; [now apply find_value_some|reflexivity]|]. apply IH. eauto.
    + intros U. inversion U as [|? t ? ts K U']; subst. apply in_ctx in K as (v & K & <-). apply IH in U' as (ws & L & <-). exists (v :: ws). rewrite (proj2 (find_iff st j v O) K), L. auto.
Qed.
Lemma adjust_iff t d b : (exists a, adjust t d b = Some a) <-> convertible t d.
Proof.
  unfold adjust, convertible. destruct (ty_eqb t d) eqn:E; [apply ty_eqb_iff in E; split; eauto|]. assert (N : t <> d) by (intros X; apply ty_eqb_iff in X; congruence). destruct (both_tensors t d); [split; eauto|]. destruct (isValidSubtype t d); [destruct b; cbn; split; eauto|]. destruct (isValidSubtype d t); [split; eauto|]. split; [intros [a A]; discriminate|intros [X|[X|[X|X]]]; [contradiction|discriminate|discriminate|discriminate]].
Qed.
Lemma adjust_values_iff vs : forall ds b st, (exists ops ws st', adjust_values vs ds b st = Some (ops, ws, st')) <-> Forall2 convertible (map snd vs) ds.
Proof.
  induction vs as [|v vs IH]; intros [|d ds] b st; cbn [adjust_values map].
  - split; [constructor|intros _; eauto].
  - split; [intros (? & ? & ? & E); discriminate|intros X; inversion X].
  - split; [intros (? & ? & ? & E); discriminate|intros X; inversion X].
  - unfold obind. split.
    + intros (ops & ws & st' & E). destruct (adjust (snd v) d b) as [a|] eqn:A; [|discriminate]. constructor; [apply (adjust_iff _ _ b); eauto|]. destruct a; destruct (adjust_values vs ds b _) as [[[o us] s1]|] eqn:E1; try discriminate; eapply IH; eauto.
    + intros X. inversion X as [|? ? ? ? C X']; subst. apply (adjust_iff _ _ b) in C as [a A]. rewrite A. destruct a.
      * apply (IH ds b st) in X' as (o & us & s1 & ->). eauto.
      * apply (IH ds b {| next := S (next st); value_map := value_map st |}) in X' as (o & us & s1 & ->). eauto.
      * apply (IH ds b {| next := S (next st); value_map := value_map st |}) in X' as (o & us & s1 & ->). eauto.
      * apply (IH ds b {| next := S (next st); value_map := value_map st |}) in X' as (o & us & s1 & ->). eauto.
Qed.
Lemma map_value_iff j v st : (exists st', map_value j v st = Some st') <-> ~ In j (map fst (ctx st)).
Proof.
  unfold map_value. rewrite ctx_keys. destruct (find_value st j) as [u|] eqn:F.
  - split; [intros [? E]; discriminate|]. intros N. apply find_value_some in F. contradiction N. apply (in_map fst) in F. exact F.
  - split; [|eauto]. intros _ K. apply in_map_iff in K as ([k u] & E & K). cbn in E. subst. now apply (proj1 (find_value_none st j) F) in K.
Qed.
Lemma binds_cons g j t outs d types g' : binds g ((j, t) :: outs) (d :: types) g' <-> ~ In j (map fst g) /\ binds ((j, d) :: g) outs types g'.
Proof.
  split.
  - intros B. inversion B as [L N D E]. cbn in L, N, D. inversion N as [|? ? N1 N2]; subst. split; [apply D; now left|]. cbn [combine map rev fst]. rewrite <- app_assoc. apply (binds_new ((j, d) :: g)); [now injection L|exact N2|]. intros k K [X|X]; [cbn in X; subst; contradiction|]. now apply (D k (or_intror K)).
  - intros [N B]. inversion B as [L N2 D E]. subst. replace (rev (combine (map fst outs) types) ++ (j, d) :: g) with (rev (combine (map fst ((j, t) :: outs)) (d :: types)) ++ g) by (cbn; now rewrite <- app_assoc). constructor; cbn.
    + now rewrite L.
    + constructor; [|exact N2]. intros K. apply (D j K). now left.
    + intros k [<-|K]; [exact N|]. intros X. apply (D k K). now right.
Qed.
Lemma binds_nil g g' : binds g [] [] g' <-> g' = g.
Proof. split; [intros B; inversion B; subst; reflexivity|intros ->; apply (binds_new g [] []); [reflexivity|constructor|intros ? []]]. Qed.
Lemma results_iff outs : forall vs st g', (exists st', map_results outs vs st = Some st' /\ ctx st' = g') <-> binds (ctx st) outs (map snd vs) g'.
Proof.
  induction outs as [|[j t] outs IH]; intros [|v vs] st g'; cbn [map_results map].
  - rewrite binds_nil. split; [intros (st' & E & <-); now injection E as <-|intros ->; eauto].
  - split; [intros (? & E & _); discriminate|intros B; inversion B; discriminate].
  - split; [intros (? & E & _); discriminate|intros B; inversion B; discriminate].
  - rewrite binds_cons. unfold obind. split.
    + intros (st' & E & C). destruct (map_value j v st) as [s|] eqn:M; [|discriminate]. split; [apply (map_value_iff j v st); eauto|]. unfold map_value in M. destruct (find_value st j); [discriminate|]. injection M as <-. apply (proj1 (IH vs {| next := next st; value_map := (j, v) :: value_map st |} g')). eauto.
    + intros [N B]. apply (map_value_iff j v st) in N as [s M]. rewrite M. unfold map_value in M. destruct (find_value st j); [discriminate|]. injection M as <-. apply IH. exact B.
Qed.
Lemma params_iff params : forall args types st g', (exists ops st', map_params params args types st = Some (ops, st') /\ ctx st' = g') <-> List.length params = List.length args /\ Forall2 convertible (map snd args) types /\ binds (ctx st) params types g'.
Proof.
  induction params as [|[j t] params IH]; intros args types st g'.
  - destruct args as [|a args]; [destruct types as [|d types]|]; cbn [map_params map].
    + rewrite binds_nil. split; [intros (o & st' & E & <-); injection E as <- <-; repeat split; constructor|intros (_ & _ & ->); eauto].
    + split; [intros (? & ? & E & _); discriminate|intros (_ & X & _); inversion X].
    + split; [intros (? & ? & E & _); discriminate|intros (X & _); discriminate].
  - destruct args as [|a args]; [split; [intros (? & ? & E & _); discriminate|intros (X & _); discriminate]|]. destruct types as [|d types]; [split; [intros (? & ? & E & _); discriminate|intros (_ & X & _); inversion X]|]. rewrite binds_cons. cbn [map_params map List.length]. unfold obind. split.
    + intros (ops & st' & E & C). destruct (adjust_values [a] [d] false st) as [[[o ws] s1]|] eqn:A; [|discriminate]. destruct ws as [|w [|? ?]]; try discriminate. destruct (map_value j w s1) as [s2|] eqn:M; [|discriminate]. destruct (map_params params args types s2) as [[o2 s3]|] eqn:P; [|discriminate]. injection E as <- <-.
      assert (X : exists ops ws st', adjust_values [a] [d] false st = Some (ops, ws, st')) by eauto. apply adjust_values_iff in X. inversion X as [|? ? ? ? X1 _]; subst. apply adjust_shape in A as (_ & _ & V & _ & T & _). specialize (T eq_refl). injection T as T.
      assert (Y : ~ In j (map fst (ctx s1))) by (apply (map_value_iff j w s1); eauto). rewrite (ctx_same _ _ V) in Y.
      assert (Z : exists ops st', map_params params args types s2 = Some (ops, st') /\ ctx st' = ctx s3) by eauto. apply IH in Z as (L & Z1 & Z2). unfold map_value in M. destruct (find_value s1 j); [discriminate|]. injection M as <-. unfold ctx in Z2 at 1. cbn [value_map map fst snd] in Z2. rewrite V, T in Z2. fold (ctx st) in Z2.
      split; [congruence|]. split; [now constructor|]. split; [exact Y|exact Z2].
    + intros (L & X & Y & B). inversion X as [|? ? ? ? X1 X2]; subst. assert (X' : Forall2 convertible (map snd [a]) [d]) by (constructor; [exact X1|constructor]). apply (adjust_values_iff [a] [d] false st) in X' as (o & ws & s1 & A). rewrite A. pose proof (adjust_shape _ _ _ _ _ _ _ A) as (_ & _ & V & Lw & T & _). specialize (T eq_refl). destruct ws as [|w [|? ?]]; try discriminate. injection T as T. rewrite <- (ctx_same _ _ V) in Y. apply (map_value_iff j w s1) in Y as [s2 M]. rewrite M. unfold map_value in M. destruct (find_value s1 j); [discriminate|]. injection M as <-.
      assert (Z : exists ops st', map_params params args types {| next := next s1; value_map := (j, w) :: value_map s1 |} = Some (ops, st') /\ ctx st' = g').
      { apply IH. split; [now injection L|]. split; [exact X2|]. unfold ctx. cbn [value_map map fst snd]. rewrite V, T. exact B. }
      destruct Z as (o2 & s3 & -> & Z). eauto.
Qed.
Lemma create_iff o vs types outs st g' : (exists ops st', create_and_map o vs types outs st = Some (ops, st') /\ ctx st' = g') <-> binds (ctx st) outs types g'.
Proof.
  unfold create_and_map. destruct (fresh types st) as [rs s1] eqn:F. apply fresh_spec in F as (V & _ & T & _). rewrite <- (ctx_same _ _ V). rewrite <- T. rewrite <- results_iff. unfold obind. split.
  - intros (ops & st' & E & C). destruct (map_results outs rs s1) as [s2|]; [|discriminate]. injection E as <- <-. eauto.
  - intros (st' & -> & C). eauto.
Qed.
Lemma deal_iff {A} : forall n (l : list A), List.length l <= n -> (exists r, deal l = Some r) <-> Nat.Even (List.length l).
Proof.
  induction n as [|n IH]; intros [|a [|b l]] L; cbn in L; try lia.
  - split; [intros _; now exists 0|cbn; eauto].
  - split; [intros _; now exists 0|cbn; eauto].
  - split; [intros [r E]; discriminate|intros [k K]; cbn in K; lia].
  - cbn [deal List.length]. unfold obind. rewrite Nat.Even_succ_succ, <- (IH l) by lia. split; [intros [r E]; destruct (deal l) as [p|]; [eauto|discriminate]|intros [[ks vs] ->]; eauto].
Qed.
Lemma rearrange_iff {A} (l : list A) : (exists r, rearrange l = Some r) <-> Nat.Even (List.length l).
Proof. rewrite <- (deal_iff (List.length l) l (Nat.le_refl _)). unfold rearrange, obind. split; [intros [r E]; destruct (deal l); [eauto|discriminate]|intros [[a b] ->]; eauto]. Qed.

Section Total.
Context (opts : options) (registered : RegistryModel.text -> bool) (object_type : nat -> option ty).
Notation imp_node := (import_node opts registered object_type).
Notation imp_block := (import_block opts registered object_type).
Notation imp_nodes := (import_nodes opts registered object_type).
Notation fine_node := (importable_node opts registered object_type).
Notation fine_nodes := (importable_nodes opts registered object_type).
Notation fine_block := (importable_block opts registered object_type).
Lemma constant_iff c t : (exists o, constant_op opts object_type c = Some (o, t)) <-> constant_type opts object_type c t.
Proof.
  split.
  - intros [o E]. destruct c; cbn [constant_op] in E; unfold obind in E.
    1-5: injection E as <- <-; constructor.
    + destruct (elements_attr s) as [[el c]|] eqn:L; [|discriminate]. apply C119_literals in L as (N & r & R & _ & ->). injection E as <- <-. now constructor.
    + injection E as <- <-; constructor.
    + destruct (function_type opts arguments returns) as [[i r]|] eqn:F; [|discriminate]. injection E as <- <-. econstructor. exact F.
    + destruct (object_type x) eqn:X; [|discriminate]. injection E as <- <-. now constructor.
    + discriminate.
  - intros C. destruct C; cbn [constant_op]; unfold obind; try (eexists; reflexivity).
    + assert (X : exists c0, elements_attr s = Some (literal_type r, c0)). { destruct s; cbn in H0; try discriminate; try (now contradiction H); injection H0 as <-; eexists; reflexivity. } destruct X as [c0 ->]. eexists; reflexivity.
    + rewrite H. eexists; reflexivity.
    + rewrite H. eexists; reflexivity.
Qed.
Definition node_can (n : node) : Prop := forall st, ok st -> forall g', (exists ops st', imp_node n st = Some (ops, st') /\ ctx st' = g') <-> fine_node (ctx st) n g'.
Definition block_can (b : block) : Prop := forall at_ t types st, ok st -> forall g', (exists mb st', imp_block b at_ t types st = Some (mb, st') /\ ctx st' = g') <-> fine_block (ctx st) b at_ types g'.
Lemma nodes_can l : Forall node_can l -> forall st, ok st -> forall g', (exists ops st', imp_nodes l st = Some (ops, st') /\ ctx st' = g') <-> fine_nodes (ctx st) l g'.
Proof.
  induction 1 as [|n l N _ IH]; intros st O g'; cbn [import_nodes].
  - split; [intros (o & s & E & <-); injection E as <- <-; constructor|intros C; inversion C; subst; eauto].
  - unfold obind. fold imp_nodes. split.
    + intros (ops & st' & E & C). destruct (imp_node n st) as [[o s1]|] eqn:E1; [|discriminate]. destruct (imp_nodes l s1) as [[o2 s2]|] eqn:E2; [|discriminate]. injection E as <- <-. destruct (node_state _ _ _ _ _ _ _ O E1) as [O1 _]. apply can_next with (g1 := ctx s1); [apply (N st O); eauto|]. apply (IH s1 O1). eauto.
    + intros C. inversion C as [|? ? g1 ? C1 C2]; subst. apply (N st O) in C1 as (o & s1 & E1 & <-). rewrite E1. destruct (node_state _ _ _ _ _ _ _ O E1) as [O1 _]. apply (IH s1 O1) in C2 as (o2 & s2 & -> & C2). eauto.
Qed.
Lemma start_iff params at_ st g' : (exists args ops st', create_block opts params at_ st = Some (args, ops, st') /\ ctx st' = g') <->
  exists ps, types_of opts (map snd params) ps /\ Forall2 convertible (match at_ with Some l => l | None => ps end) ps /\ binds (ctx st) params ps g'.
Proof.
  unfold create_block, output_types, types_of, obind. destruct (types_from_values opts (map snd params)) as [ps|] eqn:T; [|split; [intros (? & ? & ? & E & _); discriminate|intros (? & E & _); discriminate]]. set (ats := match at_ with None => ps | Some l => l end). split.
  - intros (args & ops & st' & E & C). destruct (_ =? _); [|discriminate]. destruct (fresh ats st) as [vs s1] eqn:F. destruct (map_params params vs ps s1) as [[o s2]|] eqn:M; [|discriminate]. injection E as <- <- <-. apply fresh_spec in F as (V & _ & TT & _). assert (X : exists ops st', map_params params vs ps s1 = Some (ops, st') /\ ctx st' = g') by eauto. apply params_iff in X as (_ & X & B). rewrite TT in X. rewrite (ctx_same _ _ V) in B. exists ps. split; [reflexivity|]. split; [|exact B]. subst ats. destruct at_; exact X.
  - intros (ps' & E & X & B). injection E as <-. assert (X' : Forall2 convertible ats ps) by (subst ats; destruct at_; exact X). assert (List.length ats = List.length ps) as -> by (clear - X'; induction X'; cbn; congruence). rewrite Nat.eqb_refl. destruct (fresh ats st) as [vs s1] eqn:F. apply fresh_spec in F as (V & _ & TT & FF).
    assert (P : exists ops st', map_params params vs ps s1 = Some (ops, st') /\ ctx st' = g'). { apply params_iff. rewrite TT, (ctx_same _ _ V). split; [|auto]. inversion B as [L N0 D0 E0]. transitivity (List.length ps); [exact L|]. transitivity (List.length ats); [clear - X'; induction X'; cbn; congruence|]. rewrite <- TT. apply map_length. } destruct P as (o & s2 & -> & C). exists vs, o, s2. auto.
Qed.
Lemma block_can_case params nodes returns : Forall node_can nodes -> block_can (Block params nodes returns).
Proof.
  intros H at_ t types st O g'. rewrite import_block_eq. unfold obind, create_terminator. split.
  - intros (mb & st' & E & C). destruct (create_block opts params at_ st) as [[[args casts] s1]|] eqn:CB; [|discriminate]. destruct (imp_nodes nodes s1) as [[ops s2]|] eqn:N; [|discriminate]. destruct (lookup_values s2 returns) as [ys|] eqn:L; [|discriminate]. unfold obind in E. destruct (adjust_values ys types false s2) as [[[tc ws] s3]|] eqn:T; [|discriminate]. injection E as <- <-.
    destruct (start_state _ _ _ _ _ _ _ O CB) as [O1 _]. assert (X : exists args ops st', create_block opts params at_ st = Some (args, ops, st') /\ ctx st' = ctx s1) by eauto 6. apply start_iff in X as (ps & P1 & P2 & P3). destruct (nodes_state _ _ _ _ _ _ _ O1 N) as [O2 _]. pose proof (adjust_shape _ _ _ _ _ _ _ T) as (_ & _ & V & _). rewrite (ctx_same _ _ V) in C. subst g'.
    apply (can_block opts registered object_type _ _ _ _ _ ps types (map snd ys) (ctx s1)); auto.
    + apply (nodes_can _ H s1 O1). eauto.
    + apply (uses_lookup s2 returns O2). eauto.
    + apply (adjust_values_iff ys types false s2). eauto.
  - intros C. inversion C as [? ? ? ? ps ? ys g1 ? P1 P2 P3 P4 P5 P6]; subst. assert (X : exists args ops st', create_block opts params at_ st = Some (args, ops, st') /\ ctx st' = g1) by (apply start_iff; eauto). destruct X as (args & casts & s1 & CB & <-). rewrite CB. destruct (start_state _ _ _ _ _ _ _ O CB) as [O1 _]. apply (nodes_can _ H s1 O1) in P4 as (ops & s2 & N & <-). rewrite N. destruct (nodes_state _ _ _ _ _ _ _ O1 N) as [O2 _]. apply (uses_lookup s2 returns O2) in P5 as (vs & L & <-). rewrite L. apply (adjust_values_iff vs types false s2) in P6 as (tc & ws & s3 & A). unfold obind. rewrite A. do 2 eexists. split; [reflexivity|]. apply ctx_same. now apply adjust_shape in A.
Qed.
Lemma leaf_iff o vs ts outs st g' : (exists ops st', create_and_map o vs ts outs st = Some (ops, st') /\ ctx st' = g') <-> binds (ctx st) outs ts g'.
Proof. apply create_iff. Qed.
Lemma casts_iff vs ds b st (f : list value -> state -> option (list mop * state)) outs ts g' : ok st -> (forall ws s, value_map s = value_map st -> (exists ops st', f ws s = Some (ops, st') /\ ctx st' = g') <-> binds (ctx st) outs ts g') ->
  (exists ops st', (do (casts, ws, s) <- adjust_values vs ds b st; do (ops, s) <- f ws s; Some (casts ++ ops, s)) = Some (ops, st') /\ ctx st' = g') <-> Forall2 convertible (map snd vs) ds /\ binds (ctx st) outs ts g'.
Proof.
  intros O F. rewrite <- (adjust_values_iff vs ds b st). unfold obind. split.
  - intros (ops & st' & E & C). destruct (adjust_values vs ds b st) as [[[c ws] s1]|] eqn:A; [|discriminate]. split; [eauto|]. destruct (f ws s1) as [[o s2]|] eqn:E1; [|discriminate]. injection E as <- <-. apply (F ws s1); [now apply adjust_shape in A|eauto].
  - intros [(c & ws & s1 & A) B]. rewrite A. apply (F ws s1) in B as (o & s2 & -> & C); [eauto|now apply adjust_shape in A].
Qed.
Lemma all_can b0 : block_can b0.
Proof.
  apply (block_tree node_can block_can).
  - intros name overload ins outs st O g'. cbn [import_node]. unfold output_types. split.
    + intros (ops & st' & E & C). unfold obind in E. destruct (types_from_values opts (map snd outs)) as [ts|] eqn:T; [|discriminate]. destruct (lookup_values st ins) as [vs|] eqn:L; [|discriminate]. destruct (create_operation _ _ _) as [c|] eqn:CO; [|discriminate]. econstructor; [exact T|apply (uses_lookup st ins O); eauto|exact CO|]. apply (create_iff (MSchema c) vs). eauto.
    + intros C. inversion C as [? ? ? ? ts us c ? T U CO B| | | | | | |]; subst. apply (uses_lookup st ins O) in U as (vs & L & _). rewrite T, L, CO. cbn [obind]. now apply create_iff.
  - intros p name ins outs st O g'.
    assert (PL : p <> TupleConstruct -> p <> DictConstruct -> forall X, (exists ops st', (exists ts vs, types_of opts (map snd outs) ts /\ lookup_values st ins = Some vs /\ create_and_map X vs ts outs st = Some (ops, st')) /\ ctx st' = g') <-> fine_node (ctx st) (NPrim p name ins outs) g').
    { intros N1 N2 X. split.
      - intros (ops & st' & (ts & vs & T & L & E) & C). apply can_prim with (ts := ts) (us := map snd vs); [exact N1|intros ->; now contradiction N2|exact T|apply (uses_lookup st ins O); eauto|]. apply (create_iff X vs). eauto.
      - intros C. inversion C as [|? ? ? ? ts us ? _ _ T U B| | | | | |]; subst; [|now contradiction N1]. apply (uses_lookup st ins O) in U as (vs & L & _). apply (create_iff X vs) in B as (ops & st' & E & B). exists ops, st'. split; [exists ts, vs; auto|exact B]. }
    assert (PL' : p <> TupleConstruct -> p <> DictConstruct -> forall X, (forall ops st', imp_node (NPrim p name ins outs) st = Some (ops, st') <-> exists ts vs, types_of opts (map snd outs) ts /\ lookup_values st ins = Some vs /\ create_and_map X vs ts outs st = Some (ops, st')) -> (exists ops st', imp_node (NPrim p name ins outs) st = Some (ops, st') /\ ctx st' = g') <-> fine_node (ctx st) (NPrim p name ins outs) g').
    { intros N1 N2 X H. rewrite <- (PL N1 N2 X). split; intros (ops & st' & E & C); exists ops, st'; (split; [now apply H|exact C]). }
    destruct p.
    1-5: (eapply PL'; [discriminate|discriminate|]; intros ops st'; cbn [import_node]; unfold output_types, types_of, obind; split; [intros E; destruct (lookup_values st ins) as [vs|]; [|discriminate]; destruct (types_from_values opts (map snd outs)) as [ts|]; [|discriminate]; exists ts, vs; split; [reflexivity|split; [reflexivity|exact E]]|intros (ts & vs & -> & -> & E); exact E]).
    3-6: (eapply PL'; [discriminate|discriminate|]; intros ops st'; cbn [import_node]; unfold output_types, types_of, obind; split; [intros E; destruct (types_from_values opts (map snd outs)) as [ts|]; [|discriminate]; destruct (lookup_values st ins) as [vs|]; [|discriminate]; exists ts, vs; split; [reflexivity|split; [reflexivity|exact E]]|intros (ts & vs & -> & -> & E); exact E]).
    + clear PL PL'. cbn [import_node]. unfold output_types. split.
      * intros (ops & st' & E & C). destruct outs as [|[j t] outs]; [discriminate|]. destruct t as [ | | | | | | | | | | |contained| | | | |]; try discriminate. destruct outs; [|discriminate]. unfold obind in E. destruct (types_from_values opts contained) as [cs|] eqn:T1; [|discriminate]. destruct (lookup_values st ins) as [vs|] eqn:L; [|discriminate]. cbn [map snd] in E. destruct (types_from_values opts [JTuple contained]) as [ts|] eqn:T2; [|discriminate].
        assert (X : exists ops st', (do (casts, ws, s) <- adjust_values vs cs true st; do (ops, s) <- create_and_map (MNamed (String.append "torch.prim." (unqual TupleConstruct)) NoAttr) ws ts [(j, JTuple contained)] s; Some (casts ++ ops, s)) = Some (ops, st') /\ ctx st' = g') by (exists ops, st'; split; [exact E|exact C]).
        apply casts_iff with (outs := [(j, JTuple contained)]) (ts := ts) in X as [X1 X2]; [|exact O|intros ws s V; rewrite <- (ctx_same _ _ V); apply create_iff].
        assert (TS : exists t, ts = [t]) by (inversion X2 as [LE _N _D _E]; destruct ts as [|t [|? ?]]; try discriminate LE; eauto). destruct TS as [t ->]. eapply can_tuple; [exact T1|exact T2|apply (uses_lookup st ins O); eauto|exact X1|exact X2].
      * intros C. inversion C as [|? ? ? ? ? ? ? N _ _ _ _|? ? j l cs t us ? T1 T2 U F B| | | | |]; subst; [now contradiction N|]. apply (uses_lookup st ins O) in U as (vs & L & <-). rewrite T1, L. cbn [obind map snd]. rewrite T2. cbn [obind].
        apply (casts_iff vs cs true st (fun ws s => create_and_map (MNamed (String.append "torch.prim." (unqual TupleConstruct)) NoAttr) ws [t] [(j, JTuple l)] s) [(j, JTuple l)] [t]); [exact O|intros ws s V; rewrite <- (ctx_same _ _ V); apply create_iff|auto].
    + clear PL PL'. cbn [import_node]. unfold output_types. split.
      * intros (ops & st' & E & C). unfold obind in E. destruct (lookup_values st ins) as [vs|] eqn:L; [|discriminate]. destruct (types_from_values opts (map snd outs)) as [ts|] eqn:T; [|discriminate]. destruct (rearrange vs) as [ws|] eqn:R; [|discriminate]. apply can_prim with (ts := ts) (us := map snd vs); [discriminate| |exact T|apply (uses_lookup st ins O); eauto|].
        -- intros _. assert (X : exists r, rearrange vs = Some r) by eauto. apply rearrange_iff in X. apply lookup_in in L. replace (List.length ins) with (List.length vs); [exact X|]. clear - L. induction L; cbn; congruence.
        -- apply (create_iff (MNamed (String.append "torch.prim." (unqual DictConstruct)) NoAttr) ws). eauto.
      * intros C. inversion C as [|? ? ? ? ts us ? _ EV T U B| | | | | |]; subst. apply (uses_lookup st ins O) in U as (vs & L & _). rewrite T, L. cbn [obind]. assert (X : exists r, rearrange vs = Some r). { apply rearrange_iff. apply lookup_in in L. replace (List.length vs) with (List.length ins); [now apply EV|]. clear - L. induction L; cbn; congruence. } destruct X as [ws ->]. cbn [obind]. now apply create_iff.
  - intros c out st O g'. cbn [import_node]. split.
    + intros (ops & st' & E & C). unfold obind in E. destruct (constant_op opts object_type c) as [[o t]|] eqn:K; [|discriminate]. apply can_constant with (t := t); [apply constant_iff; eauto|]. apply (create_iff o [] [t]). eauto.
    + intros C. inversion C as [| | |? ? t ? K B| | | |]; subst. apply constant_iff in K as [o K]. rewrite K. cbn [obind]. now apply create_iff.
  - intros ins outs b H st O g'. split.
    + intros (ops & st' & E & C). destruct ins as [|mx [|cond iters]]; [cbn in E; destruct (output_types opts outs); discriminate|cbn in E; destruct (output_types opts outs); discriminate|]. rewrite import_loop_eq in E. unfold obind, output_types in E. destruct (types_from_values opts (map snd outs)) as [ts|] eqn:T; [|discriminate]. destruct (lookup_values st [mx; cond]) as [vs|] eqn:L; [|discriminate]. destruct (lookup_values st iters) as [us|] eqn:LI; [|discriminate]. destruct (adjust_values us ts false st) as [[[casts ws] s1]|] eqn:AV; [|discriminate]. destruct (fresh ts s1) as [results s2] eqn:FR. destruct (map_results outs results s2) as [s3|] eqn:M; [|discriminate]. destruct (imp_block b _ _ _ s3) as [[mb s4]|] eqn:IB; [|discriminate]. injection E as <- <-.
      destruct (adjust_state idle 0 _ _ _ _ _ _ _ O (lookup_low _ _ _ O LI) AV) as [O1 G1]. destruct (results_ok _ _ _ _ _ _ O1 FR M) as (O3 & G3 & _). pose proof (fresh_spec _ _ _ _ FR) as (V2 & _ & TT & _). pose proof (adjust_shape _ _ _ _ _ _ _ AV) as (_ & _ & V1 & _).
      apply can_loop with (ts := ts) (us := map snd vs) (vs := map snd us) (g1 := ctx s3); [exact T|apply (uses_lookup st _ O); eauto|apply (uses_lookup st _ O); eauto|apply (adjust_values_iff us ts false st); eauto| |].
      * rewrite <- (ctx_same _ _ V1), <- (ctx_same _ _ V2), <- TT. apply results_iff. eauto.
      * apply (H None "torch.prim.Loop.condition" _ s3 O3). eauto.
    + intros C. inversion C as [| | | |mx cond iters ? ? ts us vs g1 ? T U1 U2 F B K| | |]; subst. rewrite import_loop_eq. unfold output_types. rewrite T. apply (uses_lookup st _ O) in U1 as (v1 & L1 & _). apply (uses_lookup st _ O) in U2 as (v2 & L2 & <-). rewrite L1, L2. cbn [obind]. apply (adjust_values_iff v2 ts false st) in F as (casts & ws & s1 & AV). rewrite AV. cbn [obind].
      destruct (adjust_state idle 0 _ _ _ _ _ _ _ O (lookup_low _ _ _ O L2) AV) as [O1 G1]. pose proof (adjust_shape _ _ _ _ _ _ _ AV) as (_ & _ & V1 & _). destruct (fresh ts s1) as [results s2] eqn:FR. pose proof (fresh_spec _ _ _ _ FR) as (V2 & _ & TT & _). rewrite <- (ctx_same _ _ V1), <- (ctx_same _ _ V2), <- TT in B. apply results_iff in B as (s3 & M & <-). rewrite M. cbn [obind]. destruct (results_ok _ _ _ _ _ _ O1 FR M) as (O3 & G3 & _). apply (H None "torch.prim.Loop.condition" _ s3 O3) in K as (mb & s4 & K & C'). rewrite K. cbn [obind]. eauto.
  - intros ins outs b b' H H' st O g'. split.
    + intros (ops & st' & E & C). destruct ins as [|cond [|? ?]]; [cbn in E; destruct (output_types opts outs); discriminate| |cbn in E; destruct (output_types opts outs); discriminate]. rewrite import_if_eq in E. unfold obind, output_types in E. destruct (types_from_values opts (map snd outs)) as [ts|] eqn:T; [|discriminate]. destruct (find_value st cond) as [v|] eqn:L; [|discriminate]. destruct (fresh ts st) as [results s2] eqn:FR. destruct (map_results outs results s2) as [s3|] eqn:M; [|discriminate]. destruct (imp_block b _ _ _ s3) as [[mb s4]|] eqn:IB; [|discriminate]. destruct (imp_block b' _ _ _ s4) as [[mb' s5]|] eqn:IB'; [|discriminate]. injection E as <- <-.
      destruct (results_ok _ _ _ _ _ _ O FR M) as (O3 & G3 & _). pose proof (fresh_spec _ _ _ _ FR) as (V2 & _ & TT & _). destruct (block_state _ _ _ _ _ _ _ _ _ _ O3 IB) as [O4 _].
      apply can_if with (ts := ts) (u := snd v) (g1 := ctx s3) (g2 := ctx s4); [exact T|apply in_ctx; exists v; split; [now apply find_value_some|reflexivity]| | |].
      * rewrite <- (ctx_same _ _ V2), <- TT. apply results_iff. eauto.
      * apply (H None "torch.prim.If.yield" _ s3 O3). eauto.
      * apply (H' None "torch.prim.If.yield" _ s4 O4). eauto.
    + intros C. inversion C as [| | | | |cond ? ? ? ts u g1 g2 ? T U B K K'| |]; subst. rewrite import_if_eq. unfold output_types. rewrite T. apply in_ctx in U as (v & U & _). rewrite (proj2 (find_iff st cond v O) U). cbn [obind]. destruct (fresh ts st) as [results s2] eqn:FR. pose proof (fresh_spec _ _ _ _ FR) as (V2 & _ & TT & _). rewrite <- (ctx_same _ _ V2), <- TT in B. apply results_iff in B as (s3 & M & <-). rewrite M. cbn [obind]. destruct (results_ok _ _ _ _ _ _ O FR M) as (O3 & G3 & _). apply (H None "torch.prim.If.yield" _ s3 O3) in K as (mb & s4 & K & <-). rewrite K. cbn [obind]. destruct (block_state _ _ _ _ _ _ _ _ _ _ O3 K) as [O4 _]. apply (H' None "torch.prim.If.yield" _ s4 O4) in K' as (mb' & s5 & K' & C'). rewrite K'. cbn [obind]. eauto.
  - intros m a r ins outs st O g'. cbn [import_node]. unfold output_types. split.
    + intros (ops & st' & E & C). destruct (function_type opts a r) as [[i o]|] eqn:FT; [|discriminate]. cbn [obind] in E. destruct (types_from_values opts (map snd outs)) as [ts|] eqn:T; [|discriminate]. cbn [obind] in E. destruct (lookup_values st ins) as [vs|] eqn:L; [|discriminate]. cbn [obind] in E.
      assert (X := ex_intro (fun ops => exists st', _ = Some (ops, st') /\ ctx st' = g') ops (ex_intro _ st' (conj E C))). apply (casts_iff vs i false st (fun ws s => create_and_map (MNamed "torch.prim.CallMethod" (NameAttr m)) ws ts outs s) outs ts g' O) in X as [X1 X2]; [|intros ws s V; rewrite <- (ctx_same _ _ V); apply create_iff].
      eapply can_method; [exact FT|exact T|apply (uses_lookup st ins O); eauto|exact X1|exact X2].
    + intros C. inversion C as [| | | | | |? ? ? ? ? i o ts us ? FT T U F B|]; subst. apply (uses_lookup st ins O) in U as (vs & L & <-). rewrite FT, T, L. cbn [obind].
      apply (casts_iff vs i false st (fun ws s => create_and_map (MNamed "torch.prim.CallMethod" (NameAttr m)) ws ts outs s) outs ts); [exact O|intros ws s V; rewrite <- (ctx_same _ _ V); apply create_iff|auto].
  - intros f ps ins outs st O g'. cbn [import_node]. unfold output_types.
    set (make := fun callee ts (ws : list value) s => if String.eqb f "__torch_mlir_internal_promote_dtypes" then create_and_map (MNamed "torch.promote_dtypes" NoAttr) ws ts outs s else do v <- find_value s callee; create_and_map (MNamed "func.call_indirect" NoAttr) (v :: ws) ts outs s).
    assert (MK : forall callee ts ws s, value_map s = value_map st -> f = "__torch_mlir_internal_promote_dtypes" \/ (exists u, In (callee, u) (ctx st)) -> (exists ops st', make callee ts ws s = Some (ops, st') /\ ctx st' = g') <-> binds (ctx st) outs ts g').
    { intros callee ts ws s V P. unfold make. rewrite <- (ctx_same _ _ V). destruct (String.eqb f _) eqn:Q; [apply create_iff|]. destruct P as [P|[u P]]; [apply String.eqb_neq in Q; contradiction|]. apply in_ctx in P as (v & P & _). assert (find_value s callee = Some v) as ->; [|cbn [obind]; apply create_iff]. unfold find_value. rewrite V. now apply (find_iff st callee v O). }
    split.
    + intros (ops & st' & E & C). destruct (types_from_values opts ps) as [cs|] eqn:T1; [|discriminate]. cbn [obind] in E. destruct (types_from_values opts (map snd outs)) as [ts|] eqn:T; [|discriminate]. cbn [obind] in E. destruct ins as [|callee ins]; [discriminate|]. destruct (lookup_values st ins) as [vs|] eqn:L; [|discriminate]. cbn [obind] in E.
      assert (P : f = "__torch_mlir_internal_promote_dtypes" \/ (exists u, In (callee, u) (ctx st))).
      { unfold obind in E. destruct (adjust_values vs cs false st) as [[[c ws] s1]|] eqn:A; [|discriminate]. destruct (String.eqb f _) eqn:Q; [left; now apply String.eqb_eq in Q|right]. apply adjust_shape in A as (_ & _ & V & _). destruct (find_value s1 callee) as [v|] eqn:FV; [|discriminate]. exists (snd v). apply in_ctx. exists v. split; [|reflexivity]. apply find_value_some in FV. now rewrite <- V. }
      assert (X := ex_intro (fun ops => exists st', _ = Some (ops, st') /\ ctx st' = g') ops (ex_intro _ st' (conj E C))). apply (casts_iff vs cs false st (make callee ts) outs ts g' O) in X as [X1 X2]; [|intros ws s V; now apply MK].
      eapply can_function; [exact T1|exact T|apply (uses_lookup st ins O); eauto|exact X1|exact P|exact X2].
    + intros C. inversion C as [| | | | | | |? ? callee ins' ? cs ts us ? T1 T U F P B]; subst. apply (uses_lookup st ins' O) in U as (vs & L & <-). rewrite T1, T, L. cbn [obind].
      apply (casts_iff vs cs false st (make callee ts) outs ts); [exact O|intros ws s V; now apply MK|auto].
  - intros st O g'. split; [intros (? & ? & E & _); discriminate|intros C; inversion C].
  - apply block_can_case.
Qed.
End Total.
