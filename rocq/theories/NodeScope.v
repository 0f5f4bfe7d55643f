(** Lemmas for C121: scopes, and the graphs that can be imported. *)
From Coq Require Import ZArith Bool String Lia List.
From Verif Require Import Prelude DtypeModel TypesModel JitTypesModel JitTypesSpec JitTypesProps NodeModel NodeSpec NodeProofs NodeShape.
From Verif Require RegistryModel.
Import ListNotations.
Open Scope string_scope.
Open Scope list_scope.
Open Scope nat_scope.

Definition after (v : list value) (ops : list mop) : list value := fold_left (fun v o => match o with MOp _ _ rs _ => rs ++ v end) ops v.
Lemma after_app v a b : after v (a ++ b) = after (after v a) b.
Proof. apply fold_left_app. Qed.
Lemma after_incl ops : forall v, incl v (after v ops).
Proof. induction ops as [|[o i r g] ops IH]; intros v; [apply incl_refl|]. cbn. eapply incl_tran; [|apply IH]. apply incl_appr, incl_refl. Qed.
Lemma scoped_app a : forall v b, scoped_ops v a -> scoped_ops (after v a) b -> scoped_ops v (a ++ b).
Proof. induction a as [|[o i r g] a IH]; intros v b S1 S2; [exact S2|]. inversion S1; subst. cbn. constructor; [assumption|]. apply IH; assumption. Qed.
Definition vis (st : state) (js : list nat) (vs : list value) : Prop := forall j, In j js -> exists v, In (j, v) (value_map st) /\ In v vs.
Lemma vis_lookup st js vs ins us : ok st -> vis st js vs -> incl ins js -> lookup_values st ins = Some us -> incl us vs.
Proof.
  intros O V S1 L. apply lookup_in in L. induction L as [|j v ins us K _ IH]; [intros ? []|]. intros u [<-|U]; [|apply IH; [intros x X; apply S1; now right|exact U]]. destruct (V j (S1 j (or_introl eq_refl))) as (v' & K' & I1). now rewrite (nodup_key _ _ _ _ (ok_keys st O) K K').
Qed.
Lemma vis_grows st st' js vs : grows st st' -> vis st js vs -> vis st' js vs.
Proof. intros [_ (new & E & _)] V j J. destruct (V j J) as (v & K & I1). exists v. rewrite E. split; [apply in_or_app; auto|exact I1]. Qed.
Lemma vis_incl st js vs vs' : incl vs vs' -> vis st js vs -> vis st js vs'.
Proof. intros S1 V j J. destruct (V j J) as (v & K & I1). exists v. auto. Qed.
Lemma vis_app st a b vs : vis st a vs -> vis st b vs -> vis st (a ++ b) vs.
Proof. intros A B j J. apply in_app_or in J as [J|J]; auto. Qed.
Lemma adjust_scope vs : forall ds b st ops ws st' V, incl vs V -> adjust_values vs ds b st = Some (ops, ws, st') -> scoped_ops V ops /\ incl ws (after V ops).
Proof.
  induction vs as [|v vs IH]; intros [|d ds] b st ops ws st' V S1 E; cbn [adjust_values] in E; try discriminate.
  - injection E as <- <- <-. split; [constructor|intros ? []].
  - unfold obind in E at 1. destruct (adjust (snd v) d b) as [a|]; [|discriminate]. assert (Sv : In v V) by (apply S1; now left). assert (Svs : incl vs V) by (intros x X; apply S1; now right).
    destruct a; unfold obind in E; destruct (adjust_values vs ds b _) as [[[o us] s1]|] eqn:E1; try discriminate; injection E as <- <- <-.
    + destruct (IH _ _ _ _ _ _ V Svs E1) as [A B]. split; [exact A|]. intros x [<-|X]; [now apply after_incl|auto].
    + destruct (IH _ _ _ _ _ _ ((next st, d) :: V) (incl_tl _ Svs) E1) as [A B]. split; [constructor; [constructor; [intros x [<-|[]]; exact Sv|constructor]|exact A]|]. intros x [<-|X]; [apply (after_incl o ((next st, d) :: V)); now left|now apply B].
    + destruct (IH _ _ _ _ _ _ ((next st, d) :: V) (incl_tl _ Svs) E1) as [A B]. split; [constructor; [constructor; [intros x [<-|[]]; exact Sv|constructor]|exact A]|]. intros x [<-|X]; [apply (after_incl o ((next st, d) :: V)); now left|now apply B].
    + destruct (IH _ _ _ _ _ _ ((next st, d) :: V) (incl_tl _ Svs) E1) as [A B]. split; [constructor; [constructor; [intros x [<-|[]]; exact Sv|constructor]|exact A]|]. intros x [<-|X]; [apply (after_incl o ((next st, d) :: V)); now left|now apply B].
Qed.
Lemma results_in outs : forall vs st st', map_results outs vs st = Some st' -> exists new, value_map st' = new ++ value_map st /\ vis st' (map fst outs) vs.
Proof.
  induction outs as [|[j t] outs IH]; intros [|v vs] st st' E; cbn in E; try discriminate.
  - injection E as <-. exists []. split; [reflexivity|intros ? []].
  - unfold obind in E. destruct (map_value j v st) as [s|] eqn:M; [|discriminate]. apply IH in E as (new & E & V). unfold map_value in M. destruct (find_value st j); [discriminate|]. injection M as <-. cbn in E. exists (new ++ [(j, v)]). split; [rewrite E, <- app_assoc; reflexivity|]. intros k [<-|K].
    + exists v. rewrite E. split; [apply in_or_app; right; now left|now left].
    + destruct (V k K) as (u & U & I1). exists u. split; [exact U|now right].
Qed.
Lemma create_scope o vs types outs st ops st' V : incl vs V -> create_and_map o vs types outs st = Some (ops, st') -> scoped_ops V ops /\ vis st' (map fst outs) (after V ops).
Proof.
  intros S1 E. unfold create_and_map, obind in E. destruct (fresh types st) as [rs s1] eqn:F. destruct (map_results outs rs s1) as [s2|] eqn:M; [|discriminate]. injection E as <- <-. apply results_in in M as (_ & _ & W). split; [constructor; [constructor; [exact S1|constructor]|constructor]|]. cbn. eapply vis_incl; [|exact W]. apply incl_appl, incl_refl.
Qed.
Lemma params_scope params : forall args types st ops st' V, incl args V -> map_params params args types st = Some (ops, st') -> scoped_ops V ops /\ vis st' (map fst params) (after V ops).
Proof.
  induction params as [|[j t] params IH]; intros [|a args] [|d types] st ops st' V S1 E; cbn [map_params] in E; try discriminate.
  - injection E as <- <-. split; [constructor|intros ? []].
  - unfold obind in E. destruct (adjust_values [a] [d] false st) as [[[o ws] s1]|] eqn:A; [|discriminate]. destruct ws as [|w [|? ?]]; try discriminate. destruct (map_value j w s1) as [s2|] eqn:M; [|discriminate]. destruct (map_params params args types s2) as [[o2 s3]|] eqn:P; [|discriminate]. injection E as <- <-.
    assert (Sa : incl [a] V) by (intros x [<-|[]]; apply S1; now left). destruct (adjust_scope _ _ _ _ _ _ _ V Sa A) as [SA WA]. assert (S2 : incl args (after V o)) by (intros x X; apply after_incl, S1; now right).
    pose proof P as P'. destruct (IH _ _ _ _ _ _ S2 P) as [SP VP]. split; [now apply scoped_app|]. rewrite after_app. intros k [<-|K]; [|now apply VP]. exists w. split; [|apply after_incl, WA; now left].
    assert (G : forall ps as_ ts s o s', map_params ps as_ ts s = Some (o, s') -> incl (value_map s) (value_map s')).
    { clear. induction ps as [|[j t] ps IH]; intros [|a as_] [|d ts] s o s' E; cbn [map_params] in E; try discriminate; [injection E as <- <-; apply incl_refl|]. unfold obind in E. destruct (adjust_values [a] [d] false s) as [[[o1 ws] s1]|] eqn:A; [|discriminate]. destruct ws as [|w [|? ?]]; try discriminate. destruct (map_value j w s1) as [s2|] eqn:M; [|discriminate]. destruct (map_params ps as_ ts s2) as [[o2 s3]|] eqn:P; [|discriminate]. injection E as <- <-. apply IH in P. apply adjust_shape in A as (_ & _ & V & _). unfold map_value in M. destruct (find_value s1 j); [discriminate|]. injection M as <-. cbn in P. rewrite <- V. intros x X. apply P. now right. }
    apply (G _ _ _ _ _ _ P'). unfold map_value in M. destruct (find_value s1 j); [discriminate|]. injection M as <-. now left.
Qed.

Section Scope.
Context (opts : options) (registered : RegistryModel.text -> bool) (object_type : nat -> option ty).
Notation imp_node := (import_node opts registered object_type).
Notation imp_block := (import_block opts registered object_type).
Notation imp_nodes := (import_nodes opts registered object_type).
Definition idle : world unit unit := {| jit_operator := fun _ _ _ _ => None; torch_operator := fun _ _ _ => None; primitive := fun _ _ _ _ => None; literal_value := fun _ => tt; method_call := fun _ _ _ => None; value_call := fun _ _ _ => None; promote := fun _ _ => None; truth := fun _ => None; count := fun _ => None; index := fun _ => tt |}.
Lemma idle_faithful : faithful idle registered.
Proof. intros name overload c xs m _. reflexivity. Qed.
Lemma node_state n st ops st' : ok st -> imp_node n st = Some (ops, st') -> ok st' /\ grows st st'.
Proof. intros O E. destruct (all_good_node idle 0 opts registered object_type idle_faithful n st ops st' O E) as (A & B & _). auto. Qed.
Lemma block_state b at_ t types st mb st' : ok st -> imp_block b at_ t types st = Some (mb, st') -> ok st' /\ grows st st'.
Proof. intros O E. destruct (all_good idle 0 opts registered object_type idle_faithful b at_ t types st mb st' O E) as (A & B & _). auto. Qed.
Lemma nodes_state l : forall st ops st', ok st -> imp_nodes l st = Some (ops, st') -> ok st' /\ grows st st'.
Proof. intros st ops st' O E. destruct (nodes_good idle 0 opts registered object_type l ltac:(apply Forall_forall; intros; now apply (all_good_node idle 0 opts registered object_type idle_faithful)) st ops st' O E) as (A & B & _). auto. Qed.
Lemma start_state params at_ st args ops st' : ok st -> create_block opts params at_ st = Some (args, ops, st') -> ok st' /\ grows st st'.
Proof. intros O E. destruct (create_block_sim idle 0 opts params at_ st args ops st' O E) as (A & B & _). auto. Qed.

Definition node_scope (n : node) : Prop := forall js V st ops st', ok st -> scoped_node js n -> vis st js V -> imp_node n st = Some (ops, st') -> scoped_ops V ops /\ vis st' (outputs_of n ++ js) (after V ops).
Definition block_scope (b : block) : Prop := forall js V at_ t types st mb st', ok st -> scoped_graph js b -> vis st js V -> imp_block b at_ t types st = Some (mb, st') -> scoped_block V mb.
Lemma leaf_scope js V o ins vs types outs st ops st' : ok st -> vis st js V -> incl ins js -> lookup_values st ins = Some vs -> ok st' /\ grows st st' -> create_and_map o vs types outs st = Some (ops, st') -> scoped_ops V ops /\ vis st' (map fst outs ++ js) (after V ops).
Proof.
  intros O W S1 L [_ G] E. destruct (create_scope _ _ _ _ _ _ _ V (vis_lookup _ _ _ _ _ O W S1 L) E) as [A B]. split; [exact A|]. apply vis_app; [exact B|]. eapply vis_incl; [apply after_incl|]. eapply vis_grows; eassumption.
Qed.
Lemma cast_scope js V o ins vs ds b casts ws s1 pre types outs st ops st' : ok st -> vis st js V -> incl ins js -> incl pre V -> lookup_values st ins = Some vs -> adjust_values vs ds b st = Some (casts, ws, s1) -> grows st st' -> create_and_map o (pre ++ ws) types outs s1 = Some (ops, st') -> scoped_ops V (casts ++ ops) /\ vis st' (map fst outs ++ js) (after V (casts ++ ops)).
Proof.
  intros O W S1 SP L A G E. destruct (adjust_scope _ _ _ _ _ _ _ V (vis_lookup _ _ _ _ _ O W S1 L) A) as [SA WA]. assert (SW : incl (pre ++ ws) (after V casts)) by (apply incl_app; [eapply incl_tran; [exact SP|apply after_incl]|exact WA]). destruct (create_scope _ _ _ _ _ _ _ _ SW E) as [SC VC]. split; [now apply scoped_app|]. rewrite after_app. apply vis_app; [exact VC|]. rewrite <- after_app. eapply vis_incl; [apply after_incl|]. eapply vis_grows; eassumption.
Qed.
Lemma nodes_scope l : Forall node_scope l -> forall js V returns st ops st' ys, ok st -> scoped_nodes js l returns -> vis st js V -> imp_nodes l st = Some (ops, st') -> lookup_values st' returns = Some ys -> scoped_ops V ops /\ incl ys (after V ops).
Proof.
  induction 1 as [|n l N _ IH]; intros js V returns st ops st' ys O SN W E L; cbn [import_nodes] in E.
  - injection E as <- <-. inversion SN; subst. split; [constructor|]. eapply vis_lookup; eassumption.
  - unfold obind in E. destruct (imp_node n st) as [[o s1]|] eqn:E1; [|discriminate]. fold (imp_nodes) in E. destruct (imp_nodes l s1) as [[o2 s2]|] eqn:E2; [|discriminate]. injection E as <- <-. inversion SN; subst. destruct (N _ _ _ _ _ O H1 W E1) as [S1 V1]. destruct (node_state _ _ _ _ O E1) as [O1 _]. destruct (IH _ _ _ _ _ _ _ O1 H3 V1 E2 L) as [S2 V2]. split; [now apply scoped_app|]. now rewrite after_app.
Qed.
Lemma block_scope_case params nodes returns : Forall node_scope nodes -> block_scope (Block params nodes returns).
Proof.
  intros H js V at_ t types st mb st' O SG W E. rewrite import_block_eq in E. unfold obind in E. destruct (create_block opts params at_ st) as [[[args casts] s1]|] eqn:C; [|discriminate]. destruct (imp_nodes nodes s1) as [[ops s2]|] eqn:N; [|discriminate]. destruct (lookup_values s2 returns) as [ys|] eqn:L; [|discriminate]. unfold create_terminator, obind in E. destruct (adjust_values ys types false s2) as [[[tc ws] s3]|] eqn:T; [|discriminate]. injection E as <- <-. inversion SG; subst.
  destruct (start_state _ _ _ _ _ _ O C) as [O1 G1]. unfold create_block, obind in C. destruct (output_types opts params) as [ps|] eqn:OT; [|discriminate]. set (ats := match at_ with None => ps | Some l => l end) in *. destruct (_ =? _); [|discriminate]. destruct (fresh ats st) as [vs s0] eqn:F. destruct (map_params params vs ps s0) as [[o s1']|] eqn:M; [|discriminate]. injection C as <- <- <-.
  destruct (params_scope _ _ _ _ _ _ (vs ++ V) (incl_appl _ (incl_refl _)) M) as [SP VP]. assert (W1 : vis s1' (map fst params ++ js) (after (vs ++ V) o)).
  { apply vis_app; [exact VP|]. eapply vis_incl; [apply after_incl|]. eapply vis_incl; [apply incl_appr, incl_refl|]. eapply vis_grows; eassumption. }
  destruct (nodes_scope _ H _ _ _ _ _ _ _ O1 H1 W1 N L) as [SN VN]. destruct (adjust_scope _ _ _ _ _ _ _ _ VN T) as [ST WT]. constructor. apply scoped_app; [exact SP|]. apply scoped_app; [exact SN|]. apply scoped_app; [exact ST|]. constructor; [constructor; [exact WT|constructor]|constructor].
Qed.
Lemma all_scopes b0 : block_scope b0.
Proof.
  apply (block_tree node_scope block_scope).
  - intros name overload ins outs js V st ops st' O SN W E. pose proof (node_state _ _ _ _ O E) as G. cbn [import_node] in E. unfold obind in E. destruct (output_types opts outs); [|discriminate]. destruct (lookup_values st ins) eqn:L; [|discriminate]. destruct (create_operation _ _ _); [|discriminate]. inversion SN; subst. cbn [outputs_of]. eapply leaf_scope; eassumption.
  - intros p name ins outs js V st ops st' O SN W E. pose proof (node_state _ _ _ _ O E) as G. cbn [import_node] in E. inversion SN; subst. cbn [outputs_of]. destruct p; unfold obind in E.
    6: { destruct outs as [|[j t] outs]; [discriminate|]. destruct t as [ | | | | | | | | | | |contained| | | | |]; try discriminate. destruct outs; [|discriminate]. destruct (types_from_values opts contained); [|discriminate]. destruct (lookup_values st ins) as [vs|] eqn:L; [|discriminate]. destruct (output_types _ _); [|discriminate]. destruct (adjust_values _ _ _ _) as [[[c ws] s1]|] eqn:A; [|discriminate]. destruct (create_and_map _ _ _ _ _) as [[o s2]|] eqn:C; [|discriminate]. injection E as <- <-. change ws with ([] ++ ws) in C. eapply cast_scope; try eassumption; [intros ? []|apply G]. }
    6: { destruct (lookup_values st ins) as [vs|] eqn:L; [|discriminate]. destruct (output_types opts outs); [|discriminate]. destruct (rearrange _) as [ws|] eqn:R; [|discriminate].
      assert (SW : incl ws V). { pose proof (vis_lookup _ _ _ _ _ O W H0 L) as SV. unfold rearrange, obind in R. destruct (deal vs) as [[ks us]|] eqn:D; [|discriminate]. injection R as <-. assert (X : forall n (vs ks us : list value), List.length vs <= n -> deal vs = Some (ks, us) -> incl (ks ++ us) vs).
        { clear. induction n as [|n IH]; intros [|k [|v vs]] ks us LE D; try discriminate; cbn in LE; try lia; try (injection D as <- <-; apply incl_refl). cbn [deal] in D. unfold obind in D. destruct (deal vs) as [[a b]|] eqn:D1; [|discriminate]. injection D as <- <-. apply IH in D1; [|lia]. intros x [<-|X]; [now left|]. apply in_app_or in X as [X|[<-|X]]; [|right; now left|]; right; right; apply D1, in_or_app; auto. }
        eapply incl_tran; [eapply X; [apply Nat.le_refl|exact D]|exact SV]. }
      destruct (create_scope _ _ _ _ _ _ _ V SW E) as [A B]. split; [exact A|]. apply vis_app; [exact B|]. eapply vis_incl; [apply after_incl|]. eapply vis_grows; [apply G|exact W]. }
    1-5: destruct (lookup_values st ins) eqn:L; [|discriminate]; destruct (output_types opts outs); [|discriminate]; eapply leaf_scope; eassumption.
    all: destruct (output_types opts outs); [|discriminate]; destruct (lookup_values st ins) eqn:L; [|discriminate]; eapply leaf_scope; eassumption.
  - intros c out js V st ops st' O SN W E. pose proof (node_state _ _ _ _ O E) as G. cbn [import_node] in E. unfold obind in E. destruct (constant_op opts object_type c) as [[o t]|] eqn:C; [|discriminate]. change (outputs_of (NConstant c out)) with (map fst [out]). eapply (leaf_scope js V o [] [] [t] [out]); try eassumption; [intros ? []|reflexivity].
  - intros ins outs b B js V st ops st' O SN W E. destruct ins as [|mx [|cond iters]]; [cbn in E; destruct (output_types opts outs); discriminate|cbn in E; destruct (output_types opts outs); discriminate|]. rewrite import_loop_eq in E. unfold obind in E. destruct (output_types opts outs) as [types|]; [|discriminate]. destruct (lookup_values st [mx; cond]) as [vs|] eqn:L; [|discriminate]. destruct (lookup_values st iters) as [us|] eqn:LI; [|discriminate]. destruct (adjust_values us types false st) as [[[casts ws] s1]|] eqn:AV; [|discriminate]. destruct (fresh types s1) as [results s2] eqn:FR. destruct (map_results outs results s2) as [s3|] eqn:M; [|discriminate]. destruct (imp_block b _ _ _ s3) as [[mb s4]|] eqn:IB; [|discriminate]. injection E as <- <-. inversion SN; subst.
    assert (Ii : incl iters js) by (intros x X; apply H1; right; now right). assert (Iv : incl [mx; cond] js) by (intros x [<-|[<-|[]]]; apply H1; [now left|right; now left]).
    destruct (adjust_state idle 0 _ _ _ _ _ _ _ O (lookup_low _ _ _ O LI) AV) as [O1 G1]. destruct (results_ok _ _ _ _ _ _ O1 FR M) as (O3 & G3 & _). destruct (block_state _ _ _ _ _ _ _ O3 IB) as [O4 G4]. destruct (adjust_scope _ _ _ _ _ _ _ V (vis_lookup _ _ _ _ _ O W Ii LI) AV) as [SA WA]. destruct (results_in _ _ _ _ M) as (_ & _ & VR).
    assert (W1 : vis s3 js (after V casts)) by (eapply vis_incl; [apply after_incl|]; eapply vis_grows; [exact (grows_trans _ _ _ G1 G3)|exact W]). split.
    + apply scoped_app; [exact SA|]. constructor; [|constructor]. constructor.
      * apply incl_app; [eapply incl_tran; [eapply vis_lookup; [exact O|exact W|exact Iv|exact L]|apply after_incl]|exact WA].
      * constructor; [|constructor]. eapply B; [exact O3|exact H3|exact W1|exact IB].
    + rewrite after_app. cbn [outputs_of after fold_left]. apply vis_app; [eapply vis_incl; [apply incl_appl, incl_refl|]; eapply vis_grows; [exact G4|exact VR]|]. eapply vis_incl; [apply incl_appr, incl_refl|]. eapply vis_grows; eassumption.
  - intros ins outs b b' B B' js V st ops st' O SN W E. destruct ins as [|cond [|? ?]]; [cbn in E; destruct (output_types opts outs); discriminate| |cbn in E; destruct (output_types opts outs); discriminate]. rewrite import_if_eq in E. unfold obind in E. destruct (output_types opts outs) as [types|]; [|discriminate]. destruct (find_value st cond) as [v|] eqn:L; [|discriminate]. destruct (fresh types st) as [results s2] eqn:FR. destruct (map_results outs results s2) as [s3|] eqn:M; [|discriminate]. destruct (imp_block b _ _ _ s3) as [[mb s4]|] eqn:IB; [|discriminate]. destruct (imp_block b' _ _ _ s4) as [[mb' s5]|] eqn:IB'; [|discriminate]. injection E as <- <-. inversion SN; subst.
    destruct (results_ok _ _ _ _ _ _ O FR M) as (O3 & G3 & _). destruct (block_state _ _ _ _ _ _ _ O3 IB) as [O4 G4]. destruct (block_state _ _ _ _ _ _ _ O4 IB') as [O5 G5]. destruct (results_in _ _ _ _ M) as (_ & _ & VR).
    assert (W3 : vis s3 js V) by (eapply vis_grows; eassumption). assert (W4 : vis s4 js V) by (eapply vis_grows; eassumption). split.
    + constructor; [|constructor]. constructor.
      * intros x [<-|[]]. assert (LL : lookup_values st [cond] = Some [v]) by (cbn; now rewrite L). apply (vis_lookup _ _ _ _ _ O W H2 LL). now left.
      * constructor; [eapply B; [exact O3|exact H4|exact W3|exact IB]|]. constructor; [|constructor]. eapply B'; [exact O4|exact H5|exact W4|exact IB'].
    + cbn [outputs_of after fold_left]. apply vis_app; [eapply vis_incl; [apply incl_appl, incl_refl|]; eapply vis_grows; [exact (grows_trans _ _ _ G4 G5)|exact VR]|]. eapply vis_incl; [apply incl_appr, incl_refl|]. eapply vis_grows; eassumption.
  - intros a b c ins outs js V st ops st' O SN W E. pose proof (node_state _ _ _ _ O E) as G. cbn [import_node] in E. unfold obind in E. destruct (function_type opts b c) as [[ex ?]|]; [|discriminate]. destruct (output_types opts outs) as [types|]; [|discriminate]. destruct (lookup_values st ins) as [vs|] eqn:L; [|discriminate]. destruct (adjust_values vs ex false st) as [[[casts ws] s1]|] eqn:AV; [|discriminate]. destruct (create_and_map _ _ _ _ _) as [[o s2]|] eqn:C; [|discriminate]. injection E as <- <-. inversion SN; subst. cbn [outputs_of]. change ws with ([] ++ ws) in C. eapply cast_scope; try eassumption; [intros ? []|apply G].
  - intros f ps ins outs js V st ops st' O SN W E. pose proof (node_state _ _ _ _ O E) as G. cbn [import_node] in E. unfold obind in E. destruct (types_from_values opts ps) as [ex|]; [|discriminate]. destruct (output_types opts outs) as [types|]; [|discriminate]. destruct ins as [|callee ins]; [discriminate|]. destruct (lookup_values st ins) as [vs|] eqn:L; [|discriminate]. destruct (adjust_values vs ex false st) as [[[casts ws] s1]|] eqn:AV; [|discriminate]. inversion SN; subst. assert (Ii : incl ins js) by (intros x X; apply H0; now right). cbn [outputs_of]. destruct (String.eqb f _).
    + destruct (create_and_map _ _ _ _ _) as [[o s2]|] eqn:C; [|discriminate]. injection E as <- <-. change ws with ([] ++ ws) in C. eapply cast_scope; try eassumption; [intros ? []|apply G].
    + destruct (find_value s1 callee) as [v|] eqn:FV; [|discriminate]. destruct (create_and_map _ _ _ _ _) as [[o s2]|] eqn:C; [|discriminate]. injection E as <- <-. change (v :: ws) with ([v] ++ ws) in C. eapply cast_scope; try eassumption; [|apply G]. intros x [<-|[]]. pose proof (adjust_shape _ _ _ _ _ _ _ AV) as (_ & _ & VM & _). assert (LL : lookup_values st [callee] = Some [v]) by (cbn; unfold find_value in *; now rewrite <- VM, FV). eapply (vis_lookup st js V [callee]); [exact O|exact W|intros x [<-|[]]; apply H0; now left|exact LL|now left].
  - intros js V st ops st' _ _ _ E. discriminate E.
  - apply block_scope_case.
Qed.
End Scope.
