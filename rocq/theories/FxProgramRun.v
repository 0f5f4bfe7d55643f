(** Proofs about import_program, second part: the body, the returned values, the whole
    function. *)
From Coq Require Import String ZArith Bool Lia List.
From Verif Require Import Prelude FxGraphModel FxGraphSpec FxGraphSsa FxGraphTrace FxGraphProofs
  FxProgramModel FxProgramSpec FxProgramProofs.
Import ListNotations.
Open Scope nat_scope.

(** ** Everything import_nodes does is a trace step *)
Lemma okarg_all : forall attr a, okarg (fun _ => True) (fun _ => True) attr a.
Proof.
  intros attr. fix F 1. intros [n|l|l|l].
  - constructor. split; auto. intros [] _; simpl; auto.
  - constructor. destruct l; simpl; auto.
  - constructor. induction l; constructor; auto.
  - constructor. induction l; constructor; auto.
Qed.
Lemma oklit_all : forall l, oklit (fun _ => True) l.
Proof. intros []; simpl; auto. Qed.
Lemma okps_all : forall ps, okps (fun _ => True) ps.
Proof.
  intros ps q [d|d] _ _; simpl; [apply oklit_all|].
  induction d; constructor; auto using oklit_all.
Qed.
Lemma import_nodes_trace : forall attr scal registry ns g skip args s ret s',
  import_nodes attr scal registry g skip ns args s = Some (ret, s') ->
  steps (fun _ => True) (fun _ => True) s s'.
Proof.
  intros attr scal registry ns g skip args s ret s' E.
  eapply import_nodes_steps; [| |exact E].
  - intros k sch _. apply okps_all.
  - apply Forall_forall. intros n _. split; [|split].
    + apply Forall_forall. intros. apply okarg_all.
    + intros k a _. apply okarg_all.
    + intros. apply okps_all.
Qed.
Lemma steps_keys : forall Lid okf s s', steps Lid okf s s' -> forall k,
  vget (s_vals s) k <> None -> vget (s_vals s') k <> None.
Proof.
  induction 1 as [|a b c S1 _ IH]; auto. intros k Hk. apply IH. clear IH c.
  destruct S1 as [s kd args tys Hkd|s m i b Hv Hb|s m i l' v s1 Hf Hv Hi|s m|s r v tys Hr]; simpl; auto.
  - destruct (keyb (m, i) k); congruence.
  - destruct (import_literal_shape _ _ _ _ Hi) as (_ & _ & _ & _ & E).
    rewrite vget_vset, E, Hv. destruct (keyb (m, i) k); congruence.
Qed.
Lemma steps_val : forall Lid okf s s', steps Lid okf s s' -> forall k v,
  vget (s_vals s) k = Some (BVal v) -> vget (s_vals s') k = Some (BVal v).
Proof.
  induction 1 as [|a b c S1 _ IH]; auto. intros k v Hk. apply IH. clear IH c.
  destruct S1 as [s kd args tys Hkd|s m i b Hv Hb|s m i l' w s1 Hf Hv Hi|s m|s r w tys Hr]; simpl; auto.
  - destruct (keyb (m, i) k) eqn:E; auto. apply keyb_spec in E. subst. congruence.
  - destruct (import_literal_shape _ _ _ _ Hi) as (_ & _ & _ & _ & E).
    rewrite vget_vset, E, Hv. destruct (keyb (m, i) k) eqn:Ek; auto.
    apply keyb_spec in Ek. subst. congruence.
Qed.

(** ** Filtering the producers changes nothing *)
Lemma import_nodes_filter : forall attr scal registry g ns args s,
  import_nodes attr scal registry g true (filter is_producer ns) args s =
  import_nodes attr scal registry g true ns args s.
Proof.
  induction ns as [|n r IH]; intros args s; auto. cbn [filter].
  destruct (is_producer n) eqn:P; cbn [import_nodes].
  - destruct (import_node attr scal registry g true n args s) as [[[args1 ret] s1]|]; auto.
    cbn [obind]. now rewrite IH.
  - assert (E : import_node attr scal registry g true n args s = Some (args, None, s)).
    { unfold is_producer in P. unfold import_node. destruct (n_op n); auto; discriminate. }
    rewrite E, IH. cbn [obind].
    destruct (import_nodes attr scal registry g true r args s) as [[[]]|]; reflexivity.
Qed.
Lemma placeholders_all : forall phs, placeholders phs = phs ->
  Forall (fun n => n_op n = Placeholder) phs.
Proof.
  intros phs H. apply Forall_forall. intros n Hn. rewrite <- H in Hn.
  apply filter_In in Hn. destruct Hn as [_ Hn]. destruct (n_op n); auto; discriminate.
Qed.
Lemma import_nodes_skip : forall attr scal registry g phs rest args s,
  Forall (fun n => n_op n = Placeholder) phs ->
  import_nodes attr scal registry g true (phs ++ rest) args s =
  import_nodes attr scal registry g true rest args s.
Proof.
  intros attr scal registry g phs rest args s H. induction H as [|n r E _ IH]; auto.
  cbn [app import_nodes]. unfold import_node. rewrite E. cbn [obind]. rewrite IH.
  destruct (import_nodes attr scal registry g true rest args s) as [[[]]|]; reflexivity.
Qed.

(** ** Single-result calls end up bound *)
Lemma bind_key : forall n i b s s', bind n i b s = Some s' -> vget (s_vals s') (n, i) <> None.
Proof.
  intros n i b s s' E. unfold bind in E. destruct (vget (s_vals s) (n, i)); [discriminate|].
  cbn [s_hooks set_vals] in E.
  assert (K : vget ((n, i, b) :: s_vals s) (n, i) <> None).
  { rewrite vget_cons, keyb_refl. discriminate. }
  destruct (sget (s_hooks s) n) as [[]|].
  - destruct b; try discriminate. simpl in E. injection E as <-. exact K.
  - destruct b; try discriminate. simpl in E. injection E as <-. exact K.
  - injection E as <-. exact K.
Qed.
Lemma bind_keeps_keys : forall n i b s s' k, bind n i b s = Some s' ->
  vget (s_vals s) k <> None -> vget (s_vals s') k <> None.
Proof.
  intros n i b s s' k E Hk. unfold bind in E. destruct (vget (s_vals s) (n, i)); [discriminate|].
  cbn [s_hooks set_vals] in E.
  assert (K : vget ((n, i, b) :: s_vals s) k <> None).
  { rewrite vget_cons. destruct (keyb (n, i) k); [discriminate|auto]. }
  destruct (sget (s_hooks s) n) as [[]|].
  - destruct b; try discriminate. simpl in E. injection E as <-. exact K.
  - destruct b; try discriminate. simpl in E. injection E as <-. exact K.
  - injection E as <-. exact K.
Qed.
Lemma bind_results_keys : forall vs n i s s' k, bind_results n i vs s = Some s' ->
  vget (s_vals s) k <> None -> vget (s_vals s') k <> None.
Proof.
  induction vs as [|v r IH]; simpl; intros n i s s' k E Hk; [congruence|].
  destruct (bind n i (BVal v) s) as [s1|] eqn:E1; [|discriminate]. cbn [obind] in E.
  eapply IH; eauto. eapply bind_keeps_keys; eauto.
Qed.

Section Bound.
Variable T : Type.
Variable W : world T.
Variable registry : string -> option schema.
Variable g : graph.
Hypothesis Hscal : scalar_variants_ok T W registry g.
Hypothesis Hcanon : canonicalize_ok T W registry g.
Hypothesis Hdrop : dropped_ok registry g.

Lemma import_call_bound : forall nd args kw sch s s',
  used_schema registry g sch -> s_returns sch = 1 ->
  import_call (g_attr g) (g_scalar g) registry nd args kw sch s = Some s' ->
  vget (s_vals s') (n_name nd, 0) <> None.
Proof.
  intros nd args kw sch s s' Hu Hr E. unfold import_call in E.
  destruct (String.eqb (s_op sch) "torch.aten.as_strided"); [discriminate|].
  destruct (pick_schema (g_scalar g) registry sch args) as [sch'|] eqn:Ep; [|discriminate].
  cbn [obind] in E.
  assert (Hr' : s_returns sch' = 1).
  { unfold pick_schema in Ep. destruct (scalar_variant (s_op sch)) as [v|] eqn:Ev; [|congruence].
    destruct (nth_error args 1); [|discriminate].
    destruct (is_scalar_arg (g_scalar g) a); [|congruence].
    destruct (Hscal _ _ _ Hu Ev Ep) as (_ & _ & R & _). lia. }
  unfold result_types in E. rewrite Hr' in E.
  destruct (n_ty nd) as [t|]; [|discriminate]. cbn [option_map obind] in E.
  match type of E with obind ?c _ = _ => destruct c as [[vs s1]|]; [|discriminate] end.
  cbn [obind] in E. unfold emit in E. cbn [mkvals bind_results] in E.
  match type of E with obind ?c _ = _ => destruct c as [s2|] eqn:E1; [|discriminate] end.
  cbn [obind] in E. injection E as <-. eapply bind_key; eauto.
Qed.

Lemma import_node_bound : forall e nd t x skip args s args' ret s', In nd g ->
  n_op nd = Call t -> node_value T W e nd = Some (Some (FOne x)) ->
  import_node (g_attr g) (g_scalar g) registry g skip nd args s = Some (args', ret, s') ->
  vget (s_vals s') (n_name nd, 0) <> None.
Proof.
  intros e nd t x skip args s args' ret s' Hin Ht Hv E.
  unfold import_node in E. unfold node_value in Hv. rewrite Ht in *.
  assert (One : forall r rs, one_or_many T r rs = Some (Some (FOne x)) -> r = 1).
  { intros [|[|r]] rs Ho; auto; simpl in Ho.
    - destruct rs; discriminate.
    - destruct rs; simpl in Ho; [discriminate|]. destruct (Nat.eqb (length rs) (S r)); discriminate. }
  destruct t as [|sch|sch|sch|].
  - match type of E with obind ?c _ = _ => destruct c as [s1|] eqn:E1; [|discriminate] end.
    cbn [obind] in E. injection E as <- <- <-. unfold import_getitem in E1.
    destruct (n_args nd) as [|[r| | |] [|[|[| |i| | | | |]| |] [|]]]; try discriminate.
    destruct (memb r (s_multi s)).
    + destruct (i <? 0)%Z; [discriminate|].
      match type of E1 with obind ?c _ = _ => destruct c as [[v s2]|]; [|discriminate] end.
      cbn [obind] in E1. eapply bind_key; eauto.
    + match type of E1 with obind ?c _ = _ => destruct c as [s2|]; [|discriminate] end.
      cbn [obind] in E1.
      match type of E1 with obind ?c _ = _ => destruct c as [vs|]; [|discriminate] end.
      cbn [obind] in E1.
      match type of E1 with obind ?c _ = _ => destruct c as [v|]; [|discriminate] end.
      cbn [obind] in E1. eapply bind_key; eauto.
  - destruct (eval_call T W e sch (n_args nd) (n_kwargs nd)) as [rs|] eqn:Ee; [|discriminate].
    cbn [obind] in Hv. apply One in Hv.
    destruct (canonicalize registry nd sch) as [[[[a kw] sch']|]|] eqn:Ec; [| |discriminate];
      cbn [obind] in E.
    + match type of E with obind ?c _ = _ => destruct c as [s1|] eqn:E1; [|discriminate] end.
      cbn [obind] in E. injection E as <- <- <-.
      destruct (Hcanon _ _ _ _ _ _ _ Hin Ht Ec Ee) as [_ Hr].
      eapply import_call_bound; [| |exact E1]; [|congruence]. exists nd. eauto 9.
    + pose proof (Hdrop _ _ Hin Ht Ec). lia.
  - destruct (eval_call T W e sch (n_args nd) (n_kwargs nd)) as [rs|] eqn:Ee; [|discriminate].
    cbn [obind] in Hv. apply One in Hv.
    match type of E with obind ?c _ = _ => destruct c as [s1|] eqn:E1; [|discriminate] end.
    cbn [obind] in E. injection E as <- <- <-.
    eapply import_call_bound; [| |exact E1]; auto. exists nd. eauto.
  - destruct (eval_call T W e sch [] (n_kwargs nd)); [|discriminate]. cbn [obind] in Hv. discriminate.
  - discriminate.
Qed.

Lemma fx_run_dom : forall ns e ins efin o n f, fx_run T W e ns ins = Some (efin, o) ->
  sget efin n = Some f -> sget e n = Some f \/ In n (map n_name ns).
Proof.
  induction ns as [|nd r IH]; intros e ins efin o n f E Hf; simpl in E.
  - injection E as -> _. auto.
  - assert (K : forall fo ins' o', fx_run T W (extend T (n_name nd) fo e) r ins' = Some (efin, o') ->
      sget e n = Some f \/ In n (map n_name (nd :: r))).
    { intros fo ins' o' E'. destruct (IH _ _ _ _ _ _ E' Hf) as [H|H]; [|right; right; auto].
      destruct fo; simpl in H; auto. destruct (String.eqb_spec (n_name nd) n); auto.
      right. now left. }
    destruct (n_op nd).
    + destruct ins as [|v ins']; [discriminate|]. eapply (K (Some (FOne v))). exact E.
    + destruct (node_value T W e nd) as [fo|]; [|discriminate]. eapply (K fo). exact E.
    + destruct (node_value T W e nd) as [fo|]; [|discriminate]. eapply (K fo). exact E.
    + destruct (mapM (eval_arg T W e None) (out_args nd)); [|discriminate]. cbn [obind] in E.
      destruct (fx_run T W e r ins) as [[e1 o1]|] eqn:E1; [|discriminate]. cbn [obind] in E.
      injection E as -> _. eapply (K None). exact E1.
    + destruct (node_value T W e nd) as [fo|]; [|discriminate]. eapply (K fo). exact E.
Qed.

Lemma import_nodes_bound : forall ns pre skip e ins efin o args s ret s',
  g = pre ++ ns -> NoDup (map n_name g) ->
  (forall n f, sget e n = Some f -> In n (map n_name pre)) ->
  fx_run T W e ns ins = Some (efin, o) ->
  import_nodes (g_attr g) (g_scalar g) registry g skip ns args s = Some (ret, s') ->
  forall nd t x, In nd ns -> n_op nd = Call t -> sget efin (n_name nd) = Some (FOne x) ->
  vget (s_vals s') (n_name nd, 0) <> None.
Proof.
  induction ns as [|nd0 r IH]; intros pre skip e ins efin o args s ret s' Hg Hn Hd Hx Hi nd t x Hin Ht Hv;
    [contradiction|].
  cbn [import_nodes] in Hi.
  match type of Hi with obind ?c _ = _ => destruct c as [[[args1 ret1] s1]|] eqn:E1; [|discriminate] end.
  cbn [obind] in Hi.
  match type of Hi with obind ?c _ = _ => destruct c as [[ret2 s2]|] eqn:E2; [|discriminate] end.
  cbn [obind] in Hi. injection Hi as <- <-.
  assert (Hg' : g = (pre ++ [nd0]) ++ r) by (rewrite <- app_assoc; exact Hg).
  assert (Hn' : NoDup (map n_name (pre ++ nd0 :: r))) by now rewrite <- Hg.
  assert (K : forall fo ins' o', fx_run T W (extend T (n_name nd0) fo e) r ins' = Some (efin, o') ->
     (nd = nd0 -> node_value T W e nd0 = Some fo) ->
     vget (s_vals s2) (n_name nd, 0) <> None).
  { intros fo ins' o' E' Hnv. destruct (extend_fresh T _ _ _ e fo Hn' Hd) as (D1 & D2 & D3).
    assert (ND : NoDup (map n_name r) /\ ~ In (n_name nd0) (map n_name r)).
    { rewrite map_app in Hn'. apply NoDup_app_inv in Hn'. destruct Hn' as (_ & Hn2 & _).
      simpl in Hn2. inversion Hn2; auto. }
    destruct Hin as [->|Hin].
    - assert (fo = Some (FOne x)).
      { destruct fo as [f|].
        - assert (sget efin (n_name nd) = Some f).
          { eapply fx_run_sub; [exact E'|apply ND|exact D2|]. simpl. now rewrite String.eqb_refl. }
          congruence.
        - destruct (fx_run_dom _ _ _ _ _ _ _ E' Hv) as [H|H]; [simpl in H; congruence|].
          exfalso. now apply ND. }
      subst fo. specialize (Hnv eq_refl).
      eapply steps_keys; [eapply import_nodes_trace; exact E2|].
      eapply import_node_bound; eauto. rewrite Hg. apply in_or_app. simpl. auto.
    - eapply (IH (pre ++ [nd0])); eauto. }
  simpl in Hx. destruct (n_op nd0) eqn:Eo.
  - destruct ins as [|v ins']; [discriminate|]. eapply (K (Some (FOne v))); [exact Hx|].
    intros ->. congruence.
  - destruct (node_value T W e nd0) as [fo|] eqn:En; [|discriminate]. eapply (K fo); [exact Hx|auto].
  - destruct (node_value T W e nd0) as [fo|] eqn:En; [|discriminate]. eapply (K fo); [exact Hx|auto].
  - destruct (mapM (eval_arg T W e None) (out_args nd0)); [|discriminate]. cbn [obind] in Hx.
    destruct (fx_run T W e r ins) as [[e1 o1]|] eqn:Er; [|discriminate]. cbn [obind] in Hx.
    injection Hx as -> _. eapply (K None); [exact Er|]. intros ->. congruence.
  - destruct (node_value T W e nd0) as [fo|] eqn:En; [|discriminate]. eapply (K fo); [exact Hx|auto].
Qed.
End Bound.

(** ** Small facts about the start of a run *)
Lemma eget_seq : forall T (l : list (rv T)) a j, eget T (combine (seq a (length l)) l) (a + j) = nth_error l j.
Proof.
  induction l as [|x l IH]; intros a j; simpl; [destruct j; auto|].
  destruct j as [|j].
  - now rewrite Nat.add_0_r, Nat.eqb_refl.
  - destruct (Nat.eqb_spec a (a + S j)); [lia|]. replace (a + S j) with (S a + j) by lia. apply IH.
Qed.
Lemma mget_seq : forall T (l : list (rv T)) a j,
  mget T (combine (map HOverwrite (seq a (length l))) l) (HOverwrite (a + j)) = nth_error l j.
Proof.
  induction l as [|x l IH]; intros a j; simpl; [destruct j; auto|].
  destruct j as [|j].
  - now rewrite Nat.add_0_r, Nat.eqb_refl.
  - destruct (Nat.eqb_spec a (a + S j)); [lia|]. replace (a + S j) with (S a + j) by lia. apply IH.
Qed.
Lemma start_env : forall T inputs j, eget T (m_env T (start T inputs)) j = nth_error inputs j.
Proof. intros. apply (eget_seq T inputs 0 j). Qed.
Lemma start_mem : forall T inputs j, mget T (m_mem T (start T inputs)) (HOverwrite j) = nth_error inputs j.
Proof. intros. apply (mget_seq T inputs 0 j). Qed.
Lemma start_store : forall T inputs b, mget T (m_mem T (start T inputs)) (HStore b) = None.
Proof.
  intros T inputs b. unfold start. cbn [m_mem]. generalize (seq 0 (length inputs)) as l.
  intros l. revert inputs. induction l; intros [|x r]; simpl; auto.
Qed.

Lemma bind_inputs_names : forall T W p ins inputs binds,
  bind_inputs T W p ins inputs = Some binds -> map (fun x => Some (fst x)) binds = map spec_name ins.
Proof.
  induction ins as [|s r IH]; intros inputs binds E; cbn [bind_inputs] in E.
  - destruct inputs; [|discriminate]. now injection E as <-.
  - cbn [map]. unfold spec_name at 1.
    destruct (i_kind s); destruct (i_arg s) as [n|n|n c|]; try discriminate;
      repeat match type of E with
      | match ?i with [] => None | _ :: _ => _ end = _ => destruct i; [discriminate|]
      | obind ?c _ = _ => destruct c eqn:?; [|discriminate]; cbn [obind] in E
      end; injection E as <-; cbn [map fst]; f_equal; eauto.
Qed.
Lemma NoDup_map_inv_some : forall A (l : list (string * A)),
  NoDup (map (fun x => Some (fst x)) l) -> NoDup (map fst l).
Proof.
  intros A l H. rewrite <- (map_map fst Some) in H. now apply NoDup_map_inv in H.
Qed.

Lemma fx_run_phs : forall T W binds phs rest e vals R,
  Forall (fun n => n_op n = Placeholder) phs ->
  mapM (fun nd => sget binds (n_name nd)) phs = Some vals ->
  fx_run T W e (phs ++ rest) vals = Some R ->
  exists e0, fx_run T W e0 rest [] = Some R /\
    (forall n, In n (map n_name phs) -> exists x, sget binds n = Some x /\ sget e0 n = Some (FOne x)) /\
    (forall n, ~ In n (map n_name phs) -> sget e0 n = sget e n).
Proof.
  induction phs as [|nd r IH]; intros rest e vals R Hp Hv Hx; cbn [mapM] in Hv.
  - injection Hv as <-. exists e. split; auto. split; auto. intros n [].
  - inversion Hp as [|? ? P1 P2]; subst.
    destruct (sget binds (n_name nd)) as [x|] eqn:Ex; [|discriminate]. cbn [obind] in Hv.
    match type of Hv with obind ?c _ = _ => destruct c as [xs|] eqn:Exs; [|discriminate] end.
    cbn [obind] in Hv. injection Hv as <-.
    cbn [app fx_run] in Hx. rewrite P1 in Hx.
    destruct (IH _ _ _ _ P2 eq_refl Hx) as (e0 & E1 & E2 & E3). exists e0. split; auto.
    cbn [map In]. split.
    + intros n Hn. destruct (in_dec string_dec n (map n_name r)) as [Hi|Hi]; [auto|].
      destruct Hn as [<-|Hn]; [|contradiction]. exists x. split; auto.
      rewrite E3 by auto. simpl. now rewrite String.eqb_refl.
    + intros n Hn. rewrite E3 by tauto. simpl. destruct (String.eqb_spec (n_name nd) n); tauto.
Qed.

Lemma placeholders_app : forall a b, placeholders (a ++ b) = placeholders a ++ placeholders b.
Proof. intros. unfold placeholders. apply filter_app. Qed.

Lemma In_combine_mkvals : forall (us : list (string * ty)) k x v, In (x, v) (combine us (mkvals k (map snd us))) ->
  exists j, nth_error us j = Some x /\ v = V (k + j) (snd x).
Proof.
  induction us as [|u us IH]; simpl; intros k x v H; [contradiction|].
  destruct H as [[= <- <-]|H].
  - exists 0. now rewrite Nat.add_0_r.
  - destruct (IH _ _ _ H) as (j & H1 & H2). exists (S j). rewrite Nat.add_succ_r. auto.
Qed.
Lemma combine_mkvals_In : forall (us : list (string * ty)) k j x, nth_error us j = Some x ->
  In (x, V (k + j) (snd x)) (combine us (mkvals k (map snd us))).
Proof.
  induction us as [|u us IH]; intros k [|j] x H; simpl in *; try discriminate.
  - injection H as <-. left. now rewrite Nat.add_0_r.
  - right. rewrite Nat.add_succ_r. apply (IH (S k)). exact H.
Qed.

Lemma dsets_some : forall A (evs d : list (string * A)) q l,
  In (q, l) evs \/ sget d q <> None -> sget (dsets evs d) q <> None.
Proof.
  induction evs as [|[k v] r IH]; simpl; intros d q l [Q|Q]; auto; try contradiction.
  - destruct Q as [[= -> ->]|Q]; [|eapply IH; left; exact Q].
    apply (IH _ _ l). right. rewrite sget_dset. simpl. rewrite String.eqb_refl. discriminate.
  - apply (IH _ _ l). right. rewrite sget_dset. simpl. destruct (String.eqb k q); [discriminate|auto].
Qed.

(** ** The whole function *)
Section Whole.
Variable T : Type.
Variable W : world T.
Variable registry : string -> option schema.
Variable p : program.
Variable inputs outs : list (rv T).
Variable efin : fenv T.
Notation g := (pg_graph p).
Notation m0 := (start T inputs).
Hypothesis Hbool : bool_cast_ok T W.
Hypothesis Hscal : scalar_variants_ok T W registry g.
Hypothesis Hcanon : canonicalize_ok T W registry g.
Hypothesis Hdrop : dropped_ok registry g.
Hypothesis Htens : tensor_operands_ok registry g.
Hypothesis Hexp : export_ok p.
Hypothesis Hcomp : computed_mutations p.
Hypothesis Hmeta : meta_ok T g efin.
Hypothesis Hrun : program_run T W p inputs = Some (efin, outs).

Definition hooks_of (t : tables) : list (string * hook) :=
  dsets (flat_map (uevent p) (combine (t_user t) (mkvals 0 (map snd (t_user t)))) ++
         flat_map bevent (t_buf t)) [].
Definition tracked_of (t : tables) (q : string) (l : loc) : Prop :=
  sget (hooks_of t) q = Some l /\ exists x, sget efin q = Some (FOne x).

(** Which events there are, in terms of the signature. *)
Lemma uevent_In : forall t q l, input_tables p = Some t ->
  In (q, l) (flat_map (uevent p) (combine (t_user t) (mkvals 0 (map snd (t_user t))))) <->
  exists k n, l = HOverwrite k /\ nth_error (map fst (t_user t)) k = Some n /\
    sget (mutated_user_inputs (pg_outs p)) n = Some q.
Proof.
  intros t q l Ht. rewrite in_flat_map. split.
  - intros [[x v] [H1 H2]]. apply In_combine_mkvals in H1. destruct H1 as (j & J1 & ->).
    unfold uevent in H2. cbn [fst snd vid] in H2.
    destruct (sget (mutated_user_inputs (pg_outs p)) (fst x)) as [q'|] eqn:E; [|contradiction].
    destruct H2 as [[= <- <-]|[]]. exists j, (fst x). rewrite nth_error_map, J1. auto.
  - intros (k & n & -> & H1 & H2). rewrite nth_error_map in H1.
    destruct (nth_error (t_user t) k) as [x|] eqn:E; [|discriminate]. injection H1 as <-.
    exists (x, V k (snd x)). split; [exact (combine_mkvals_In _ 0 k x E)|].
    unfold uevent. cbn [fst snd vid]. rewrite H2. now left.
Qed.

Lemma tables_start : forall binds, bind_inputs T W p (pg_ins p) inputs = Some binds ->
  forall t, input_tables p = Some t ->
  map fst (t_user t) = user_names (pg_ins p) /\ Forall (user_ok p) (t_user t) /\
  Forall2 (fun nt v => In (fst nt, v) binds) (t_user t) inputs /\
  (forall n l, In (n, l) (t_cin t) -> good T W p binds n l) /\
  (forall n l, In (n, l) (t_cten t) -> good T W p binds n l) /\
  (forall n l, In (n, l) (t_par t) -> good T W p binds n l) /\
  (forall x, In x (t_buf t) -> buf_ok T W p (pg_ins p) binds x).
Proof.
  intros binds Hb t Ht.
  destruct (tables_spec T W p _ _ _ _ _ Ht Hb) as (us & B1 & B2 & B3 & B4 & B5 & B6 & B7 & B8).
  simpl in B1. subst us. repeat split; auto.
  - intros Hc. destruct (B5 _ _ H) as [[]|[G1 G2]]; auto.
  - destruct (B5 _ _ H) as [[]|[G1 G2]]; auto.
  - intros Hc. destruct (B6 _ _ H) as [[]|[G1 G2]]; auto.
  - destruct (B6 _ _ H) as [[]|[G1 G2]]; auto.
  - intros Hc. destruct (B7 _ _ H) as [[]|[G1 G2]]; auto.
  - destruct (B7 _ _ H) as [[]|[G1 G2]]; auto.
  - destruct (B8 _ H) as [[]|[[G1 G2] G3]]; auto.
  - destruct (B8 _ H) as [[]|[[G1 G2] G3]]; auto.
  - destruct (B8 _ H) as [[]|[G1 G3]]; apply G3.
  - destruct (B8 _ H) as [[]|[G1 G3]]; apply G3.
Qed.

Lemma event_mutation : forall binds t q l, bind_inputs T W p (pg_ins p) inputs = Some binds ->
  input_tables p = Some t -> sget (hooks_of t) q = Some l ->
  (exists k o, l = HOverwrite k /\ nth_error (user_names (pg_ins p)) k = Some (os_target o) /\
     sget (mutated_user_inputs (pg_outs p)) (os_target o) = Some q /\
     In o (pg_outs p) /\ os_kind o = OInputMutation /\ os_arg o = OTensor q) \/
  (exists b o, l = HStore b /\ os_target o = b /\ sget (buffer_producers (pg_outs p)) b = Some q /\
     In o (pg_outs p) /\ os_kind o = OBufferMutation /\ os_arg o = OTensor q).
Proof.
  intros binds t q l Hb Ht E. apply dsets_In in E. destruct E as [E|E]; [|discriminate].
  destruct (tables_start _ Hb _ Ht) as (T1 & _ & _ & _ & _ & _ & T7).
  apply in_app_or in E. destruct E as [E|E].
  - left. apply (uevent_In t) in E; auto. destruct E as (k & n & -> & H1 & H2).
    rewrite T1 in H1. destruct (mutated_spec _ _ _ H2) as (o & O1 & O2 & O3 & O4). subst n.
    exists k, o. auto 8.
  - right. apply in_flat_map in E. destruct E as [x [X1 X2]]. apply T7 in X1.
    destruct X1 as (_ & X3 & _). unfold bevent in X2.
    destruct (snd (snd (snd x))) as [q'|] eqn:Eq; [|contradiction].
    destruct X2 as [[= <- <-]|[]]. symmetry in X3.
    destruct (producers_spec _ _ _ X3) as (o & O1 & O2 & O3 & O4).
    exists (fst (snd (snd x))), o. auto 8.
Qed.

Lemma hooks_deterministic : forall binds t q q' l, bind_inputs T W p (pg_ins p) inputs = Some binds ->
  input_tables p = Some t -> sget (hooks_of t) q = Some l -> sget (hooks_of t) q' = Some l -> q' = q.
Proof.
  intros binds t q q' l Hb Ht E1 E2.
  destruct (event_mutation _ _ _ _ Hb Ht E1) as [(k & o & -> & H1 & H2 & _)|(b & o & -> & _ & H2 & _)];
  destruct (event_mutation _ _ _ _ Hb Ht E2) as [(k' & o' & E & H1' & H2' & _)|(b' & o' & E & _ & H2' & _)];
    try discriminate.
  - injection E as ->. congruence.
  - injection E as ->. congruence.
Qed.

Lemma program_body : forall t sp ret s1, input_tables p = Some t ->
  prologue p t (empty_st (length (map snd (t_user t)))) = Some sp ->
  import_nodes (g_attr g) (g_scalar g) registry g true (filter is_producer g) [] sp = Some (ret, s1) ->
  length (t_user t) = length inputs /\ wf (length inputs) s1 /\
  (exists m, sim T W g m0 (hooks_of t) (tracked_of t) efin efin s1 m) /\
  (forall q l x, sget (hooks_of t) q = Some l -> sget efin q = Some (FOne x) ->
     vget (s_vals s1) (q, 0) <> None).
Proof.
  intros t sp ret s1 Ht Hp Hi.
  unfold program_run in Hrun.
  destruct (bind_inputs T W p (pg_ins p) inputs) as [binds|] eqn:Hb; [|discriminate].
  cbn [obind] in Hrun.
  match type of Hrun with obind ?c _ = _ => destruct c as [phv|] eqn:Ephv; [|discriminate] end.
  cbn [obind] in Hrun.
  match type of Hrun with obind ?c _ = _ => destruct c as [[ef o]|] eqn:Hfx; [|discriminate] end.
  cbn [obind] in Hrun.
  match type of Hrun with obind ?c _ = _ => destruct c as [os|] eqn:Eos; [|discriminate] end.
  cbn [obind] in Hrun. injection Hrun as -> ->.
  destruct Hexp as (Hnames & (phs & rest & Hg & Hphs & Hrest) & Hspec & _).
  pose proof (placeholders_all _ Hphs) as Pall.
  assert (Pg : placeholders g = phs) by (rewrite Hg, placeholders_app, Hphs, Hrest; apply app_nil_r).
  rewrite Pg in Ephv. rewrite Hg in Hfx.
  destruct (fx_run_phs T W binds phs rest [] phv (efin, o) Pall Ephv Hfx) as (e0 & F0 & F1 & F2).
  assert (NDg : NoDup (map n_name (phs ++ rest))) by now rewrite <- Hg.
  rewrite map_app in NDg. destruct (NoDup_app_inv _ _ _ NDg) as (ND1 & ND2 & ND3).
  assert (Dom : forall n f, sget e0 n = Some f -> In n (map n_name phs)).
  { intros n f Hn. destruct (in_dec string_dec n (map n_name phs)); auto.
    rewrite F2 in Hn by auto. discriminate. }
  assert (One : forall n f, sget e0 n = Some f -> exists x, sget binds n = Some x /\ f = FOne x).
  { intros n f Hn. destruct (F1 n (Dom _ _ Hn)) as (x & X1 & X2). exists x. split; auto. congruence. }
  assert (Sub : forall n f, sget e0 n = Some f -> sget efin n = Some f).
  { intros n f Hn. eapply fx_run_sub; [exact F0|exact ND2| |exact Hn].
    intros k Hk. destruct (sget e0 k) eqn:Ek; auto. apply Dom in Ek. exfalso. eapply ND3; eauto. }
  assert (NDb : NoDup (map fst binds)).
  { apply NoDup_map_inv_some. rewrite (bind_inputs_names _ _ _ _ _ _ Hb). exact Hspec. }
  assert (Ph : forall n x, find_ph g n <> None -> In (n, x) binds -> sget e0 n = Some (FOne x)).
  { intros n x Hf Hn. destruct (find_ph g n) as [nd|] eqn:En; [|congruence].
    destruct (find_ph_In _ _ _ En) as (I1 & I2 & I3). rewrite Hg in I1. apply in_app_or in I1.
    destruct I1 as [I1|I1].
    - destruct (F1 n) as (y & Y1 & Y2); [rewrite <- I2; now apply in_map|].
      rewrite (In_sget _ _ _ _ NDb Hn) in Y1. congruence.
    - exfalso. assert (In nd (placeholders rest)) by (apply filter_In; rewrite I3; auto).
      rewrite Hrest in H. contradiction. }
  destruct (tables_start _ Hb _ Ht) as (T1 & T2 & T3 & T4 & T5 & T6 & T7).
  assert (Hlen : length (t_user t) = length inputs) by (eapply Forall2_len; exact T3).
  split; auto. rewrite map_length, Hlen in Hp.
  assert (NoPh : forall q l, sget (hooks_of t) q = Some l -> sget e0 q = None).
  { intros q l Hq. destruct (sget e0 q) as [f|] eqn:Eq; auto. exfalso.
    assert (exists o, mutation p o q) as [o' Ho].
    { destruct (event_mutation _ _ _ _ Hb Ht Hq) as [(k & o' & _ & _ & _ & A1 & A2 & A3)|(b & o' & _ & _ & _ & A1 & A2 & A3)];
        exists o'; split; auto. }
    destruct (Hcomp _ _ Ho) as (nd & t0 & C1 & C2 & C3). subst q. apply Dom in Eq.
    rewrite Hg in C1. apply in_app_or in C1. destruct C1 as [C1|C1].
    - rewrite Forall_forall in Pall. apply Pall in C1. congruence.
    - eapply ND3; [exact Eq|]. now apply in_map. }
  assert (NoPh' : forall q, (exists l, In (q, l) (flat_map (uevent p) (combine (t_user t) (mkvals 0 (map snd (t_user t)))) ++
         flat_map bevent (t_buf t))) -> sget e0 q = None).
  { intros q [l Hq]. destruct (sget (hooks_of t) q) as [l'|] eqn:E; [eauto|].
    exfalso. eapply dsets_some; [|exact E]. left. exact Hq. }
  set (N := length inputs) in *.
  (* start *)
  assert (P0 : pinv T W p N inputs e0 efin (empty_st N) m0).
  { split; [|split; [|split; [|split]]]; auto; try discriminate.
    - constructor; simpl; auto; try discriminate; try contradiction.
      + apply ext_refl.
      + intros i x Hx. assert (nth_error inputs i = Some x) by (rewrite <- start_env; exact Hx).
        unfold N. apply nth_error_Some. congruence.
      + intros n l f Ha Hn. exfalso. apply Dom in Hn. unfold g_attr in Ha.
        destruct (find_node g n) as [nd|] eqn:En; [|discriminate]. unfold find_node in En.
        apply find_some in En. destruct En as [I1 I2]. apply String.eqb_eq in I2.
        rewrite Hg in I1. apply in_app_or in I1. destruct I1 as [I1|I1].
        * rewrite Forall_forall in Pall. rewrite (Pall _ I1) in Ha. discriminate.
        * eapply ND3; [exact Hn|]. rewrite <- I2. now apply in_map.
      + intros n f Hn. apply Dom in Hn. apply in_map_iff in Hn. destruct Hn as [nd [E1 E2]].
        exists nd. split; auto. rewrite Hg. apply in_or_app. auto.
      + intros n l Hn. destruct (One _ _ Hn) as (x & _ & [=]).
    - constructor; simpl; try discriminate; try contradiction.
      + unfold defs. simpl. apply app_nil_r.
      + intros pre o0 post H. destruct pre; discriminate. }
  unfold prologue in Hp.
  match type of Hp with obind ?c _ = _ => destruct c as [q1|] eqn:Q1; [|discriminate] end. cbn [obind] in Hp.
  match type of Hp with obind ?c _ = _ => destruct c as [q2|] eqn:Q2; [|discriminate] end. cbn [obind] in Hp.
  match type of Hp with obind ?c _ = _ => destruct c as [q3|] eqn:Q3; [|discriminate] end. cbn [obind] in Hp.
  match type of Hp with obind ?c _ = _ => destruct c as [q4|] eqn:Q4; [|discriminate] end. cbn [obind] in Hp.
  assert (GoodE : forall n l, good T W p binds n l -> exists x, sget e0 n = Some (FOne x) /\ lit_val T W l = Some x).
  { intros n l (G1 & x & G2 & G3). exists x. split; auto. }
  destruct (pro_consts T W p N inputs e0 efin Hbool (t_cten t) _ _ _ P0 (fun n l Hl => GoodE n l (T5 n l Hl)) Q1) as (m1 & P1 & K1).
  destruct (pro_consts T W p N inputs e0 efin Hbool (t_cin t) _ _ _ P1 (fun n l Hl => GoodE n l (T4 n l Hl)) Q2) as (m2 & P2 & K2).
  destruct (pro_inputs T W p N inputs e0 efin Hmeta (t_user t) inputs 0 q2 m2 q3 P2 T2) as (m3 & P3 & K3); auto.
  { rewrite Forall_forall in T2. clear - T2 T3 Ph Sub.
    induction T3; constructor.
    - assert (E : sget e0 (fst x) = Some (FOne y)).
      { apply Ph; auto. destruct (T2 x (or_introl eq_refl)) as (nd & tt & F & _). congruence. }
      split; auto.
    - apply IHT3. intros. apply T2. now right. }
  { intros q n Hn Hm. apply NoPh'. apply In_nth_error in Hn. destruct Hn as [k Hk].
    exists (HOverwrite k). apply in_or_app. left. apply (uevent_In t); eauto. }
  { intros j x Hj. rewrite start_env, start_mem. split; auto. split; auto.
    unfold N. apply nth_error_Some. simpl. congruence. }
  destruct (pro_params T W p N inputs e0 efin (t_par t) _ _ _ P3 (fun n l Hl => GoodE n l (T6 n l Hl)) Q4) as (P4 & K4).
  destruct (pro_buffers T W p N inputs e0 efin (t_buf t) q4 m3 sp P4) as (P5 & K5); auto.
  { intros x Hx. pose proof (T7 _ Hx) as (B1 & _). split; [apply GoodE; exact B1|].
    intros q Hq. apply NoPh'. exists (HStore (fst (snd (snd x)))). apply in_or_app. right.
    apply in_flat_map. exists x. split; auto. unfold bevent. rewrite Hq. now left. }
  assert (HK : s_hooks sp = hooks_of t).
  { rewrite K5, K4, K3, K2, K1. unfold hooks_of, dsets. now rewrite fold_left_app. }
  destruct P5 as (S5 & W5 & M5 & U5 & _).
  (* switch hooks *)
  assert (Hmut : forall q k, sget (hooks_of t) q = Some (HOverwrite k) -> eget T (m_env T m0) k <> None).
  { intros q k Hq. rewrite <- HK in Hq. apply (wf_hooks _ _ W5) in Hq.
    rewrite start_env. apply nth_error_Some. exact Hq. }
  assert (Htrk : forall q l, tracked_of t q l -> sget (hooks_of t) q = Some l /\
     (forall q', sget (hooks_of t) q' = Some l -> q' = q) /\
     (forall f, sget efin q = Some f -> exists x, f = FOne x)).
  { intros q l [A1 [x A2]]. split; auto. split.
    - intros q' Hq'. eapply hooks_deterministic; eauto.
    - intros f Hf. exists x. congruence. }
  assert (S6 : sim T W g m0 (hooks_of t) (tracked_of t) efin e0 sp m3).
  { destruct S5 as [X1 X2 X3 X4 X5 X6 X7 X8 X9 X10 X11 X12 X13].
    cbn [s_ops s_next s_vals s_hooks s_multi s_unpack set_hooks] in *. constructor; auto.
    - intros q l [A1 _]. destruct (vget (s_vals sp) (q, 0)) as [b|] eqn:Eb.
      + exfalso. apply X4 in Eb. apply NoPh in A1. destruct b; simpl in Eb;
          unfold fvget in Eb; simpl in Eb; rewrite A1 in Eb;
          [destruct Eb as (? & ? & _)|destruct Eb as (? & ? & _)|]; congruence.
      + apply X13. discriminate.
    - intros l _. apply X13. discriminate. }
  rewrite import_nodes_filter in Hi.
  assert (Hi' : import_nodes (g_attr g) (g_scalar g) registry g true rest [] sp = Some (ret, s1)).
  { pose proof (import_nodes_skip (g_attr g) (g_scalar g) registry g phs rest [] sp Pall) as E.
    rewrite <- Hg in E. congruence. }
  split; [eapply import_nodes_wf; [exact W5|constructor|exact Hi']|]. split.
  - destruct (import_nodes_sim T W registry g m0 (hooks_of t) (tracked_of t) efin Hbool Hscal Hcanon
      Hdrop Htens Hnames Hmeta Htrk Hmut N rest phs true e0 sp m3 [] [] ret s1 o) as (m6 & S7 & _ & _); auto.
    + intros n Hn. rewrite M5 in Hn. contradiction.
    + rewrite Hrest. reflexivity.
    + eauto.
  - intros q l x Hq Hx.
    assert (exists o, mutation p o q) as [o' Ho].
    { destruct (event_mutation _ _ _ _ Hb Ht Hq) as [(k & o' & _ & _ & _ & A1 & A2 & A3)|(b & o' & _ & _ & _ & A1 & A2 & A3)];
        exists o'; split; auto. }
    destruct (Hcomp _ _ Ho) as (nd & t0 & C1 & C2 & C3). subst q.
    rewrite Hg in C1. apply in_app_or in C1. destruct C1 as [C1|C1].
    { rewrite Forall_forall in Pall. apply Pall in C1. congruence. }
    eapply import_nodes_bound; [exact Hscal|exact Hcanon|exact Hdrop|exact Hg|exact Hnames|exact Dom|exact F0|exact Hi'|exact C1|exact C3|exact Hx].
Qed.
End Whole.

(** ** Returned values *)
Lemma user_outputs_keys : forall g outs i us cs, user_outputs g i outs = Some (us, cs) ->
  forall k, In k (map fst cs) -> i <= k.
Proof.
  induction outs as [|o r IH]; intros i us cs E k Hk; cbn [user_outputs] in E.
  - injection E as <- <-. contradiction.
  - destruct (os_kind o); [|apply (IH _ _ _ E) in Hk; lia..].
    destruct (os_arg o) as [n|n|v|]; try discriminate.
    + destruct (find_prod g n) as [nd|]; [|discriminate]. cbn [obind] in E.
      destruct (n_ty nd); [|discriminate]. cbn [obind] in E.
      match type of E with obind ?c _ = _ => destruct c as [[us' cs']|] eqn:E'; [|discriminate] end.
      cbn [obind] in E. injection E as <- <-. apply (IH _ _ _ E') in Hk. lia.
    + destruct (find_prod g n) as [nd|]; [|discriminate]. cbn [obind] in E.
      destruct (n_ty nd); [|discriminate]. cbn [obind] in E.
      match type of E with obind ?c _ = _ => destruct c as [[us' cs']|] eqn:E'; [|discriminate] end.
      cbn [obind] in E. injection E as <- <-. apply (IH _ _ _ E') in Hk. lia.
    + match type of E with obind ?c _ = _ => destruct c as [[us' cs']|] eqn:E'; [|discriminate] end.
      cbn [obind] in E. injection E as <- <-. destruct Hk as [<-|Hk]; [auto|].
      apply (IH _ _ _ E') in Hk. lia.
Qed.
Definition const_out (o : ospec) : bool :=
  match os_kind o, os_arg o with OUser, OConst _ => true | _, _ => false end.

Lemma find_const : forall (done cs : list (nat * lit)) pos i,
  (forall k, In k (map fst done) -> k < pos) -> (forall k, In k (map fst cs) -> i <= k) ->
  forall kv, find (fun c => Nat.eqb (fst c) pos) (done ++ cs) = Some kv -> i <= pos.
Proof.
  intros done cs pos i H1 H2 kv E. apply find_some in E. destruct E as [E1 E2].
  apply Nat.eqb_eq in E2. apply in_app_or in E1. destruct E1 as [E1|E1].
  - exfalso. apply (in_map fst) in E1. apply H1 in E1. lia.
  - apply (in_map fst) in E1. apply H2 in E1. lia.
Qed.
Lemma find_here : forall (done cs : list (nat * lit)) pos v,
  (forall k, In k (map fst done) -> k < pos) ->
  find (fun c => Nat.eqb (fst c) pos) (done ++ (pos, v) :: cs) = Some (pos, v).
Proof.
  induction done as [|[k w] r IH]; intros cs pos v H; simpl.
  - now rewrite Nat.eqb_refl.
  - destruct (Nat.eqb_spec k pos).
    + specialize (H k (or_introl eq_refl)). lia.
    + apply IH. intros. apply H. now right.
Qed.

Section Ret.
Variable T : Type.
Variable W : world T.
Variable g : graph.
Variable m0 : mach T.
Variable hooks0 : list (string * hook).
Variable tracked : string -> loc -> Prop.
Variable efin : fenv T.
Hypothesis Hbool : bool_cast_ok T W.
Hypothesis Hmut : forall p t, sget hooks0 p = Some (HOverwrite t) -> eget T (m_env T m0) t <> None.

Lemma return_sim : forall outs i pos us cs done s m vs s' xs,
  user_outputs g i outs = Some (us, cs) ->
  (forall k, In k (map fst done) -> k < pos) -> pos <= i ->
  sim T W g m0 hooks0 tracked efin efin s m ->
  mapM (out_value T W efin) (filter user_out outs) = Some xs ->
  return_values (done ++ cs) pos us s = Some (vs, s') ->
  exists m', sim T W g m0 hooks0 tracked efin efin s' m' /\ ext T m m' /\
    Forall2 (holds T m') vs xs.
Proof.
  induction outs as [|o r IH]; intros i pos us cs done s m vs s' xs Eu Hd Hp Hs Ex Er.
  - cbn [user_outputs] in Eu. injection Eu as <- <-. cbn [return_values] in Er.
    injection Er as <- <-. cbn in Ex. injection Ex as <-.
    exists m. split; auto. split; [apply ext_refl|constructor].
  - cbn [user_outputs] in Eu. unfold user_out in Ex. cbn [filter] in Ex. fold user_out in Ex.
    destruct (os_kind o); [|eapply (IH (S i)); eauto..].
    cbn [mapM] in Ex.
    destruct (out_value T W efin o) as [x|] eqn:Eo; [|discriminate]. cbn [obind] in Ex.
    match type of Ex with obind ?c _ = _ => destruct c as [xs'|] eqn:Exs; [|discriminate] end.
    cbn [obind] in Ex. injection Ex as <-. unfold out_value in Eo.
    assert (Named : forall n us' cs', user_outputs g (S i) r = Some (us', cs') ->
       us = Some n :: us' -> cs = cs' -> match sget efin n with Some (FOne v) => Some v | _ => None end = Some x ->
       exists m', sim T W g m0 hooks0 tracked efin efin s' m' /\ ext T m m' /\
         Forall2 (holds T m') vs (x :: xs')).
    { intros n us' cs' Eu' -> -> Hn. cbn [return_values] in Er.
      destruct (resolve n 0 s) as [[v s1]|] eqn:E1; [|discriminate]. cbn [obind] in Er.
      match type of Er with obind ?c _ = _ => destruct c as [[vs2 s2]|] eqn:E2; [|discriminate] end.
      cbn [obind] in Er. injection Er as <- <-.
      assert (Hv : fvget efin (n, 0) = Some x).
      { unfold fvget. simpl. destruct (sget efin n) as [[]|]; auto; discriminate. }
      destruct (resolve_sim T W g m0 hooks0 tracked efin Hbool Hmut _ _ _ _ _ _ _ _ Hs E1 Hv) as (m1 & S1 & X1 & C1).
      destruct (IH (S i) (S pos) us' cs' done s1 m1 vs2 s2 xs') as (m2 & S2 & X2 & C2); auto; try lia.
      - intros k Hk. apply Hd in Hk. lia.
      - exists m2. split; auto. split; [eapply ext_trans; eauto|]. constructor; auto.
        eapply holds_ext; eauto. }
    destruct (os_arg o) as [n|n|l|]; try discriminate.
    + destruct (find_prod g n) as [nd|]; [|discriminate]. cbn [obind] in Eu.
      destruct (n_ty nd); [|discriminate]. cbn [obind] in Eu.
      match type of Eu with obind ?c _ = _ => destruct c as [[us' cs']|] eqn:Eu'; [|discriminate] end.
      cbn [obind] in Eu. injection Eu as <- <-. eapply Named; eauto.
    + destruct (find_prod g n) as [nd|]; [|discriminate]. cbn [obind] in Eu.
      destruct (n_ty nd); [|discriminate]. cbn [obind] in Eu.
      match type of Eu with obind ?c _ = _ => destruct c as [[us' cs']|] eqn:Eu'; [|discriminate] end.
      cbn [obind] in Eu. injection Eu as <- <-. eapply Named; eauto.
    + match type of Eu with obind ?c _ = _ => destruct c as [[us' cs']|] eqn:Eu'; [|discriminate] end.
      cbn [obind] in Eu. injection Eu as <- <-. cbn [return_values] in Er.
      match type of Er with obind ?c _ = _ => destruct c as [[v s1]|] eqn:E1; [|discriminate] end.
      cbn [obind] in Er.
      match type of Er with obind ?c _ = _ => destruct c as [[vs2 s2]|] eqn:E2; [|discriminate] end.
      cbn [obind] in Er. injection Er as <- <-.
      match type of E1 with obind ?c _ = _ => destruct c as [kv|] eqn:Ef; [|discriminate] end.
      cbn [obind] in E1.
      assert (i = pos).
      { pose proof (find_const done ((i, l) :: cs') pos i Hd) as Q.
        assert (Hk : forall k, In k (map fst ((i, l) :: cs')) -> i <= k).
        { intros k [<-|Hk]; [auto|]. apply (user_outputs_keys _ _ _ _ _ Eu') in Hk. lia. }
        specialize (Q Hk _ Ef). lia. }
      subst i. rewrite find_here in Ef by auto. injection Ef as <-. simpl in E1.
      destruct (import_literal_sim T W g m0 hooks0 tracked efin Hbool Hmut _ _ _ _ _ _ _ Hs E1 Eo) as (m1 & S1 & X1 & C1).
      destruct (IH (S pos) (S pos) us' cs' (done ++ [(pos, l)]) s1 m1 vs2 s2 xs') as (m2 & S2 & X2 & C2); auto.
      * intros k Hk. rewrite map_app in Hk. apply in_app_or in Hk. destruct Hk as [Hk|[<-|[]]]; auto.
        apply Hd in Hk. lia.
      * rewrite <- app_assoc. exact E2.
      * exists m2. split; auto. split; [eapply ext_trans; eauto|]. constructor; auto.
        eapply holds_ext; eauto.
Qed.
End Ret.

Lemma return_aligned : forall g outs i pos us cs done s vs s',
  user_outputs g i outs = Some (us, cs) ->
  (forall k, In k (map fst done) -> k < pos) -> pos <= i ->
  return_values (done ++ cs) pos us s = Some (vs, s') ->
  forall pre o post, outs = pre ++ o :: post -> const_out o = true ->
  i = pos /\ forallb user_out pre = true.
Proof.
  induction outs as [|o' r IH]; intros i pos us cs done s vs s' Eu Hd Hp Er pre o post Hsplit Ho.
  - destruct pre; discriminate.
  - cbn [user_outputs] in Eu.
    destruct pre as [|o1 pre]; cbn [app] in Hsplit; injection Hsplit as -> ->.
    + unfold const_out in Ho. destruct (os_kind o); try discriminate.
      destruct (os_arg o) as [n|n|l|]; try discriminate. split; [|reflexivity].
      match type of Eu with obind ?c _ = _ => destruct c as [[us' cs']|] eqn:Eu'; [|discriminate] end.
      cbn [obind] in Eu. injection Eu as <- <-. cbn [return_values] in Er.
      match type of Er with obind ?c _ = _ => destruct c as [[v s1]|] eqn:E1; [|discriminate] end.
      match type of E1 with obind ?c _ = _ => destruct c as [kv|] eqn:Ef; [|discriminate] end.
      pose proof (find_const done ((i, l) :: cs') pos i Hd) as Q.
      assert (Hk : forall k, In k (map fst ((i, l) :: cs')) -> i <= k).
      { intros k [<-|Hk]; [auto|]. apply (user_outputs_keys _ _ _ _ _ Eu') in Hk. lia. }
      specialize (Q Hk _ Ef). lia.
    + cbn [forallb]. unfold user_out at 1.
      assert (Skip : user_outputs g (S i) (pre ++ o :: post) = Some (us, cs) ->
                     i = pos /\ false && forallb user_out pre = true).
      { intros E. destruct (IH _ _ _ _ _ _ _ _ E Hd ltac:(lia) Er pre o post eq_refl Ho). lia. }
      destruct (os_kind o1); [|exact (Skip Eu)..].
      assert (K : forall us' cs' done' s1 v2 s2, user_outputs g (S i) (pre ++ o :: post) = Some (us', cs') ->
         (forall k, In k (map fst done') -> k < S pos) ->
         return_values (done' ++ cs') (S pos) us' s1 = Some (v2, s2) ->
         i = pos /\ true && forallb user_out pre = true).
      { intros us' cs' done' s1 v2 s2 A B C.
        destruct (IH _ _ _ _ _ _ _ _ A B ltac:(lia) C pre o post eq_refl Ho) as [D1 D2].
        split; [lia|exact D2]. }
      destruct (os_arg o1) as [n|n|l|]; try discriminate.
      * destruct (find_prod g n) as [nd|]; [|discriminate]. cbn [obind] in Eu.
        destruct (n_ty nd); [|discriminate]. cbn [obind] in Eu.
        match type of Eu with obind ?c _ = _ => destruct c as [[us' cs']|] eqn:Eu'; [|discriminate] end.
        cbn [obind] in Eu. injection Eu as <- <-. cbn [return_values] in Er.
        match type of Er with obind ?c _ = _ => destruct c as [[v s1]|] eqn:E1; [|discriminate] end.
        cbn [obind] in Er.
        match type of Er with obind ?c _ = _ => destruct c as [[vs2 s2]|] eqn:E2; [|discriminate] end.
        eapply (K us' cs' done); eauto. intros k Hk. apply Hd in Hk. lia.
      * destruct (find_prod g n) as [nd|]; [|discriminate]. cbn [obind] in Eu.
        destruct (n_ty nd); [|discriminate]. cbn [obind] in Eu.
        match type of Eu with obind ?c _ = _ => destruct c as [[us' cs']|] eqn:Eu'; [|discriminate] end.
        cbn [obind] in Eu. injection Eu as <- <-. cbn [return_values] in Er.
        match type of Er with obind ?c _ = _ => destruct c as [[v s1]|] eqn:E1; [|discriminate] end.
        cbn [obind] in Er.
        match type of Er with obind ?c _ = _ => destruct c as [[vs2 s2]|] eqn:E2; [|discriminate] end.
        eapply (K us' cs' done); eauto. intros k Hk. apply Hd in Hk. lia.
      * match type of Eu with obind ?c _ = _ => destruct c as [[us' cs']|] eqn:Eu'; [|discriminate] end.
        cbn [obind] in Eu. injection Eu as <- <-. cbn [return_values] in Er.
        match type of Er with obind ?c _ = _ => destruct c as [[v s1]|] eqn:E1; [|discriminate] end.
        cbn [obind] in Er.
        match type of Er with obind ?c _ = _ => destruct c as [[vs2 s2]|] eqn:E2; [|discriminate] end.
        match type of E1 with obind ?c _ = _ => destruct c as [kv|] eqn:Ef; [|discriminate] end.
        assert (i = pos).
        { pose proof (find_const done ((i, l) :: cs') pos i Hd) as Q.
          assert (Hk : forall k, In k (map fst ((i, l) :: cs')) -> i <= k).
          { intros k [<-|Hk]; [auto|]. apply (user_outputs_keys _ _ _ _ _ Eu') in Hk. lia. }
          specialize (Q Hk _ Ef). lia. }
        subst i. eapply (K us' cs' (done ++ [(pos, l)]) s1 vs2 s2); [reflexivity| |].
        -- intros k Hk. rewrite map_app in Hk. apply in_app_or in Hk.
           destruct Hk as [Hk|[<-|[]]]; auto. apply Hd in Hk. lia.
        -- rewrite <- app_assoc. exact E2.
Qed.

Lemma return_wf : forall N consts us pos s vs s', wf N s ->
  return_values consts pos us s = Some (vs, s') -> wf N s' /\ grow s s' /\ Forall (vok s') vs.
Proof.
  induction us as [|x r IH]; intros pos s vs s' Hw E; cbn [return_values] in E.
  - injection E as <- <-. split; auto. split; auto using grow_refl.
  - match type of E with obind ?c _ = _ => destruct c as [[v s1]|] eqn:E1; [|discriminate] end.
    cbn [obind] in E.
    match type of E with obind ?c _ = _ => destruct c as [[vs2 s2]|] eqn:E2; [|discriminate] end.
    cbn [obind] in E. injection E as <- <-.
    assert (W1 : wf N s1 /\ grow s s1 /\ vok s1 v).
    { destruct x as [n|]; [eapply resolve_wf; eauto|].
      match type of E1 with obind ?c _ = _ => destruct c as [kv|] eqn:Ef; [|discriminate] end.
      eapply import_literal_wf; eauto. }
    destruct W1 as (W1 & G1 & V1). destruct (IH _ _ _ _ W1 E2) as (W2 & G2 & V2).
    split; auto. split; [eapply grow_trans; eauto|]. constructor; auto. eapply vok_grow; eauto.
Qed.

(** ** import_program, taken apart *)
Lemma import_program_inv : forall registry p tys ops vs,
  import_program registry p = Some (tys, ops, vs) ->
  exists us cs t sp ret s1 s2, user_outputs (pg_graph p) 0 (pg_outs p) = Some (us, cs) /\
    input_tables p = Some t /\ tys = map snd (t_user t) /\
    prologue p t (empty_st (length (map snd (t_user t)))) = Some sp /\
    import_nodes (g_attr (pg_graph p)) (g_scalar (pg_graph p)) registry (pg_graph p) true
      (filter is_producer (pg_graph p)) [] sp = Some (ret, s1) /\
    return_values cs 0 us s1 = Some (vs, s2) /\ ops = s_ops s2.
Proof.
  intros registry p tys ops vs E. unfold import_program in E.
  match type of E with obind ?c _ = _ => destruct c as [[us cs]|] eqn:E1; [|discriminate] end.
  cbn [obind] in E.
  match type of E with obind ?c _ = _ => destruct c as [t|] eqn:E2; [|discriminate] end.
  cbn [obind] in E.
  match type of E with obind ?c _ = _ => destruct c as [sp|] eqn:E3; [|discriminate] end.
  cbn [obind] in E.
  match type of E with obind ?c _ = _ => destruct c as [[ret s1]|] eqn:E4; [|discriminate] end.
  cbn [obind] in E.
  match type of E with obind ?c _ = _ => destruct c as [[vs2 s2]|] eqn:E5; [|discriminate] end.
  cbn [obind] in E. injection E as <- <- <-. exists us, cs, t, sp, ret, s1, s2. auto 10.
Qed.
