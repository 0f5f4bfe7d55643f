(** C89: exported programs imported with their state frozen into literals. *)
From Coq Require Import String ZArith Bool Lia List.
From Verif Require Import Prelude FxGraphModel FxGraphSpec FxGraphProps FxFrozenModel.
Import ListNotations.
Open Scope Z_scope.

(** ** Specification *)
(** Simultaneous substitution of literals for nodes. *)
Fixpoint subst_arg (rho : string -> option lit) (a : arg) : arg :=
  match a with
  | ANode m => match rho m with Some v => ALit v | None => a end
  | ALit _ => a
  | AList l => AList (map (subst_arg rho) l)
  | ATuple l => ATuple (map (subst_arg rho) l)
  end.
(** The inputs that are frozen: placeholders with a state value that is not None. *)
Definition frozen_inputs (reps : list (string * lit)) (g : graph) (s : string) : option lit :=
  if existsb (fun n => is_placeholder n && String.eqb (n_name n) s) g then
    match sget reps s with Some LNone => None | o => o end
  else None.
Definition remaining (rho : string -> option lit) (g : graph) : graph :=
  filter (fun n => match rho (n_name n) with None => true | Some _ => false end) g.
(** The full inputs of the original graph: state at the frozen placeholders, the user's
    values, in order, at the others. *)
Fixpoint full_inputs T (W : world T) (rho : string -> option lit) (g : graph)
    (user : list (rv T)) : option (list (rv T)) :=
  match g with
  | [] => match user with [] => Some [] | _ => None end
  | n :: r =>
      if is_placeholder n then
        match rho (n_name n) with
        | Some l => do v <- lit_val T W l; do vs <- full_inputs T W rho r user; Some (v :: vs)
        | None => match user with
                  | [] => None
                  | v :: u => do vs <- full_inputs T W rho r u; Some (v :: vs)
                  end
        end
      else full_inputs T W rho r user
  end.

(** ** Which values replace which inputs *)
(** Last entry of a map of the signature for an input name. *)
Fixpoint last_entry (sig : list (string * string)) (s : string) : option string :=
  match sig with
  | [] => None
  | (i, t) :: r => match last_entry r s with
                   | Some u => Some u
                   | None => if String.eqb i s then Some t else None
                   end
  end.
Definition known (source : list (string * lit)) (sig : list (string * string)) : Prop :=
  forall i s, In (i, s) sig -> sget source s <> None.

Lemma lift_spec : forall source sig acc,
  match lift source sig acc with
  | Some r => known source sig /\
      forall s, sget r s = match last_entry sig s with
                           | Some t => sget source t | None => sget acc s end
  | None => ~ known source sig
  end.
Proof.
  intros source sig. induction sig as [|[i t] r IH]; intros acc.
  - cbn. split; [intros ? ? []|reflexivity].
  - unfold lift. cbn [foldM fst snd]. destruct (sget source t) as [v|] eqn:Ev; cbn [obind].
    + specialize (IH ((i, v) :: acc)). unfold lift in IH. destruct (foldM _ r _) as [q|].
      * destruct IH as [K L]. split.
        -- intros i' s' [[= <- <-]|H]; [congruence|eauto].
        -- intros s. rewrite L. cbn [last_entry]. destruct (last_entry r s) eqn:El; [reflexivity|].
           cbn [sget]. destruct (String.eqb i s); [now rewrite Ev|reflexivity].
      * intros K. apply IH. intros i' s' H. apply (K i' s'). now right.
    + intros K. exact (K i t (or_introl eq_refl) Ev).
Qed.

(** C89. The value put in place of an input: its parameter, else its buffer, both in the
    state dict, else its lifted constant; and the import is refused exactly when one of the
    names is missing. *)
Theorem C89_state_of_an_input : forall x,
  match replacements x with
  | Some reps =>
      (forall c, x_constants x = Some c -> known c (x_lifted x)) /\
      known (x_state x) (x_buffers x) /\ known (x_state x) (x_params x) /\
      forall s, sget reps s =
        match last_entry (x_params x) s, last_entry (x_buffers x) s,
              last_entry (x_lifted x) s with
        | Some t, _, _ => sget (x_state x) t
        | None, Some t, _ => sget (x_state x) t
        | None, None, Some t => match x_constants x with Some c => sget c t | None => None end
        | None, None, None => None
        end
  | None => (exists c, x_constants x = Some c /\ ~ known c (x_lifted x)) \/
            ~ known (x_state x) (x_buffers x) \/ ~ known (x_state x) (x_params x)
  end.
Proof.
  intros x. unfold replacements.
  assert (A : match (match x_constants x with None => Some [] | Some k => lift k (x_lifted x) [] end) with
    | Some c0 => (forall c, x_constants x = Some c -> known c (x_lifted x)) /\
        forall s, sget c0 s = match last_entry (x_lifted x) s with
          | Some t => match x_constants x with Some c => sget c t | None => None end
          | None => None end
    | None => exists c, x_constants x = Some c /\ ~ known c (x_lifted x) end).
  { destruct (x_constants x) as [k|].
    - assert (L := lift_spec k (x_lifted x) []). destruct (lift k (x_lifted x) []) as [r|].
      + destruct L as [K L]. split; [now intros c [= <-]|]. intros s. now rewrite L.
      + now exists k.
    - split; [discriminate|]. intros s. now destruct (last_entry (x_lifted x) s). }
  match goal with |- context [obind ?o _] => destruct o as [c0|] end; cbn [obind]; [|now left].
  destruct A as [A1 A2].
  assert (B := lift_spec (x_state x) (x_buffers x) c0).
  destruct (lift (x_state x) (x_buffers x) c0) as [b|]; cbn [obind]; [|now right; left].
  assert (P := lift_spec (x_state x) (x_params x) b).
  destruct (lift (x_state x) (x_params x) b) as [p|]; [|now right; right].
  destruct B as [B1 B2], P as [P1 P2]. split; [exact A1|]. split; [exact B1|]. split; [exact P1|].
  intros s. rewrite P2, B2, A2. destruct (last_entry (x_params x) s); [reflexivity|].
  now destruct (last_entry (x_buffers x) s).
Qed.

(** ** Freezing is substitution *)
Fixpoint arg_ind' (P : arg -> Prop) (HN : forall n, P (ANode n)) (HL : forall l, P (ALit l))
    (HA : forall l, Forall P l -> P (AList l)) (HT : forall l, Forall P l -> P (ATuple l))
    (a : arg) : P a :=
  match a with
  | ANode n => HN n
  | ALit l => HL l
  | AList l => HA l ((fix go (l : list arg) : Forall P l :=
      match l with [] => Forall_nil P | x :: r => Forall_cons x (arg_ind' P HN HL HA HT x) (go r) end) l)
  | ATuple l => HT l ((fix go (l : list arg) : Forall P l :=
      match l with [] => Forall_nil P | x :: r => Forall_cons x (arg_ind' P HN HL HA HT x) (go r) end) l)
  end.
Lemma map_ext_Forall' : forall (f h : arg -> arg) l, Forall (fun a => f a = h a) l -> map f l = map h l.
Proof. intros f h l H. induction H; cbn; congruence. Qed.
Lemma subst_ext : forall rho rho' a, (forall s, rho s = rho' s) -> subst_arg rho a = subst_arg rho' a.
Proof.
  intros rho rho' a H. induction a as [n|l|l IH|l IH] using arg_ind'; cbn.
  - now rewrite H.
  - reflexivity.
  - f_equal. now apply map_ext_Forall'.
  - f_equal. now apply map_ext_Forall'.
Qed.
Lemma subst_none : forall rho a, (forall s, rho s = None) -> subst_arg rho a = a.
Proof.
  intros rho a H. induction a as [n|l|l IH|l IH] using arg_ind'; cbn.
  - now rewrite H.
  - reflexivity.
  - f_equal. rewrite <- (map_id l) at 2. now apply map_ext_Forall'.
  - f_equal. rewrite <- (map_id l) at 2. now apply map_ext_Forall'.
Qed.
Definition extend (rho : string -> option lit) (n : string) (v : lit) (s : string) : option lit :=
  if String.eqb s n then Some v else rho s.
Lemma replace_subst : forall rho n v a, (rho n = None \/ rho n = Some v) ->
  replace_uses n v (subst_arg rho a) = subst_arg (extend rho n v) a.
Proof.
  intros rho n v a H. induction a as [m|l|l IH|l IH] using arg_ind'; cbn.
  - unfold extend. destruct (String.eqb_spec m n) as [->|Hn].
    + destruct H as [-> | ->]; cbn; [now rewrite String.eqb_refl|reflexivity].
    + destruct (rho m); cbn; [reflexivity|]. destruct (String.eqb_spec m n); congruence.
  - reflexivity.
  - f_equal. rewrite map_map. now apply map_ext_Forall'.
  - f_equal. rewrite map_map. now apply map_ext_Forall'.
Qed.
Lemma with_args_comp : forall f h n, with_args f (with_args h n) = with_args (fun a => f (h a)) n.
Proof. intros f h []. unfold with_args. cbn. f_equal; rewrite map_map; reflexivity. Qed.
Lemma with_args_ext : forall f h n, (forall a, f a = h a) -> with_args f n = with_args h n.
Proof.
  intros f h [] H. unfold with_args. cbn. f_equal; apply map_ext; intros; [|f_equal]; apply H.
Qed.
Lemma with_args_id : forall f n, (forall a, f a = a) -> with_args f n = n.
Proof.
  intros f [] H. unfold with_args. cbn. f_equal.
  - rewrite <- map_id. apply map_ext. auto.
  - rewrite <- map_id. apply map_ext. intros []. cbn. now rewrite H.
Qed.
Definition sub_graph (rho : string -> option lit) (g : graph) : graph :=
  map (with_args (subst_arg rho)) (remaining rho g).
Lemma remaining_ext : forall rho rho' g, (forall s, rho s = rho' s) -> remaining rho g = remaining rho' g.
Proof. intros. unfold remaining. apply filter_ext. intros n. now rewrite H. Qed.
Lemma sub_graph_ext : forall rho rho' g, (forall s, rho s = rho' s) -> sub_graph rho g = sub_graph rho' g.
Proof.
  intros rho rho' g H. unfold sub_graph. rewrite (remaining_ext _ _ _ H). apply map_ext.
  intros n. apply with_args_ext. intros a. now apply subst_ext.
Qed.
Lemma filter_map_swap : forall (p : node -> bool) (f : node -> node) l,
  (forall n, p (f n) = p n) -> filter p (map f l) = map f (filter p l).
Proof.
  intros p f l H. induction l as [|a l IH]; cbn; [reflexivity|]. rewrite H.
  destruct (p a); cbn; now rewrite IH.
Qed.
Lemma filter_twice : forall (p q : node -> bool) l,
  filter p (filter q l) = filter (fun n => q n && p n) l.
Proof.
  intros p q l. induction l as [|a l IH]; cbn; [reflexivity|]. destruct (q a); cbn; [|exact IH].
  destruct (p a); now rewrite IH.
Qed.
Lemma freeze_step : forall rho n v g, (rho n = None \/ rho n = Some v) ->
  filter (fun m => negb (String.eqb (n_name m) n)) (map (with_args (replace_uses n v)) (sub_graph rho g)) =
  sub_graph (extend rho n v) g.
Proof.
  intros rho n v g H. unfold sub_graph. rewrite map_map, filter_map_swap by reflexivity.
  assert (R : filter (fun m => negb (String.eqb (n_name m) n)) (remaining rho g) = remaining (extend rho n v) g).
  { unfold remaining. rewrite filter_twice. apply filter_ext. intros m. unfold extend.
    destruct (String.eqb (n_name m) n), (rho (n_name m)); reflexivity. }
  rewrite R. apply map_ext. intros m. rewrite with_args_comp. apply with_args_ext.
  intros a. now apply replace_subst.
Qed.

Lemma freeze_fold : forall reps ns rho g,
  (forall s, rho s = None \/ (rho s = sget reps s /\ rho s <> Some LNone)) ->
  fold_left (freeze_one reps) ns (sub_graph rho g) =
  sub_graph (fun s => match rho s with Some v => Some v | None => frozen_inputs reps ns s end) g.
Proof.
  intros reps ns. induction ns as [|n ns IH]; intros rho g H; cbn [fold_left].
  - apply sub_graph_ext. intros s. now destruct (rho s).
  - assert (Skip : (forall s, frozen_inputs reps (n :: ns) s = frozen_inputs reps ns s) ->
      fold_left (freeze_one reps) ns (sub_graph rho g) =
      sub_graph (fun s => match rho s with Some v => Some v | None => frozen_inputs reps (n :: ns) s end) g).
    { intros E. rewrite IH by exact H. apply sub_graph_ext. intros s. now rewrite E. }
    assert (NoRep : (sget reps (n_name n) = None \/ sget reps (n_name n) = Some LNone) ->
       forall s, frozen_inputs reps (n :: ns) s = frozen_inputs reps ns s).
    { intros Hr s. unfold frozen_inputs. cbn [existsb].
      destruct (String.eqb_spec (n_name n) s) as [<-|]; [|now rewrite andb_false_r].
      destruct Hr as [-> | ->]; now destruct (_ || _), (existsb _ ns). }
    unfold freeze_one at 2. destruct (is_placeholder n) eqn:Ep.
    + destruct (sget reps (n_name n)) as [v|] eqn:Er; [|apply Skip, NoRep; now left].
      assert (D : v = LNone \/ v <> LNone) by (destruct v; ((now left) || (right; discriminate))).
      destruct D as [-> | Nv]; [apply Skip, NoRep; now right|].
      assert (G : match v with LNone => sub_graph rho g | _ =>
         filter (fun m => negb (String.eqb (n_name m) (n_name n)))
           (map (with_args (replace_uses (n_name n) v)) (sub_graph rho g)) end =
         sub_graph (extend rho (n_name n) v) g).
      { destruct v; try congruence; apply freeze_step; specialize (H (n_name n)); intuition congruence. }
      rewrite G, IH.
      * apply sub_graph_ext. intros s. unfold extend, frozen_inputs. cbn [existsb]. rewrite Ep. cbn [andb].
        rewrite (String.eqb_sym (n_name n) s).
        destruct (String.eqb_spec s (n_name n)) as [->|Hs]; [|destruct (rho s); reflexivity].
        cbn [orb]. rewrite Er. destruct (H (n_name n)) as [-> | [-> ?]].
        -- destruct v; congruence.
        -- reflexivity || now rewrite Er.
      * intros s. unfold extend. destruct (String.eqb_spec s (n_name n)) as [->|]; [|apply H].
        right. split; [now symmetry|congruence].
    + apply Skip. intros s. unfold frozen_inputs. cbn [existsb]. now rewrite Ep.
Qed.

(** C89. Freezing substitutes, everywhere and at once, the state values for the inputs they
    belong to and removes exactly these inputs. *)
Theorem C89_freezing_is_substitution : forall reps g,
  freeze reps g =
  map (with_args (subst_arg (frozen_inputs reps g))) (remaining (frozen_inputs reps g) g).
Proof.
  intros reps g. unfold freeze.
  assert (E : g = sub_graph (fun _ => None) g).
  { unfold sub_graph, remaining.
    assert (F : filter (fun _ : node => true) g = g).
    { induction g as [|a g IH]; cbn; [reflexivity|now rewrite IH at 1]. }
    rewrite F. rewrite <- map_id at 1. apply map_ext. intros n. symmetry. apply with_args_id.
    intros a. now apply subst_none. }
  transitivity (fold_left (freeze_one reps) g (sub_graph (fun _ => None) g)); [now rewrite <- E|].
  rewrite freeze_fold by auto. reflexivity.
Qed.

(** ** Meaning *)
Section Meaning.
Variable T : Type.
Variable W : world T.
Variable rho : string -> option lit.

(** The environments of the two runs. *)
Definition env_rel (e e' : fenv T) : Prop := forall s,
  match rho s with
  | None => sget e' s = sget e s
  | Some l => sget e s = None \/ exists v, sget e s = Some (FOne v) /\ lit_val T W l = Some v
  end.

Lemma eval_list : forall e l,
  eval_elem T W e (AList l) = option_map RList (mapM (eval_elem T W e) l).
Proof.
  intros e l. cbn [eval_elem]. f_equal. induction l as [|x r IH]; [reflexivity|].
  cbn [mapM]. rewrite IH. destruct (eval_elem T W e x); [|reflexivity]. cbn [obind].
  now destruct (mapM (eval_elem T W e) r).
Qed.
Lemma eval_tuple : forall e l,
  eval_elem T W e (ATuple l) = option_map RList (mapM (eval_elem T W e) l).
Proof. exact eval_list. Qed.
Lemma mapM_elems : forall e e' l,
  Forall (fun a => forall v, eval_elem T W e a = Some v -> eval_elem T W e' (subst_arg rho a) = Some v) l ->
  forall vs, mapM (eval_elem T W e) l = Some vs ->
  mapM (eval_elem T W e') (map (subst_arg rho) l) = Some vs.
Proof.
  intros e e' l H. induction H as [|x r Hx Hr IH]; intros vs E; cbn [mapM map] in *; [exact E|].
  destruct (eval_elem T W e x) as [w|]; [|discriminate]. rewrite (Hx w eq_refl). cbn [obind] in *.
  destruct (mapM (eval_elem T W e) r) as [ws|]; [|discriminate]. now rewrite (IH ws eq_refl).
Qed.
Lemma eval_elem_subst : forall e e', env_rel e e' -> forall a v,
  eval_elem T W e a = Some v -> eval_elem T W e' (subst_arg rho a) = Some v.
Proof.
  intros e e' R a. induction a as [n|l|l IH|l IH] using arg_ind'; intros v H; cbn [subst_arg].
  - specialize (R n). destruct (rho n) as [l|]; cbn in *.
    + destruct R as [E | (w & E & L)]; rewrite E in H; [discriminate|]. congruence.
    + now rewrite R.
  - exact H.
  - rewrite eval_list in *. destruct (mapM (eval_elem T W e) l) as [vs|] eqn:E; [|discriminate].
    assert (X := mapM_elems e e' l IH vs E). rewrite X. exact H.
  - rewrite eval_tuple in *. destruct (mapM (eval_elem T W e) l) as [vs|] eqn:E; [|discriminate].
    assert (X := mapM_elems e e' l IH vs E). rewrite X. exact H.
Qed.
Lemma eval_arg_subst : forall e e', env_rel e e' -> forall t a v,
  eval_arg T W e t a = Some v -> eval_arg T W e' t (subst_arg rho a) = Some v.
Proof.
  intros e e' R t a v H. unfold eval_arg in *. destruct (eval_elem T W e a) as [w|] eqn:E; [|discriminate].
  now rewrite (eval_elem_subst e e' R a w E).
Qed.
Lemma sget_map_args : forall (f : arg -> arg) kw s,
  sget (map (fun p : string * arg => (fst p, f (snd p))) kw) s = option_map f (sget kw s).
Proof.
  intros f kw s. induction kw as [|[k a] r IH]; cbn; [reflexivity|]. now destruct (String.eqb k s).
Qed.
Lemma eval_params_subst : forall e e', env_rel e e' -> forall args kw ps i vs,
  eval_params T W e args kw i ps = Some vs ->
  eval_params T W e' (map (subst_arg rho) args)
    (map (fun p => (fst p, subst_arg rho (snd p))) kw) i ps = Some vs.
Proof.
  intros e e' R args kw ps. induction ps as [|p r IH]; intros i vs H; cbn in *; [exact H|].
  destruct (eval_param T W e args kw i p) as [v|] eqn:Ep; [|discriminate]. cbn [obind] in H.
  destruct (eval_params T W e args kw (S i) r) as [ws|] eqn:Er; [|discriminate]. cbn [obind] in H.
  rewrite (IH _ _ Er).
  assert (X : eval_param T W e' (map (subst_arg rho) args)
    (map (fun p => (fst p, subst_arg rho (snd p))) kw) i p = Some v).
  { unfold eval_param in *. rewrite nth_error_map, sget_map_args.
    destruct (nth_error args i) as [a|]; cbn [option_map].
    - now apply (eval_arg_subst e e').
    - destruct (sget kw (p_name p)) as [a|]; cbn [option_map]; [now apply (eval_arg_subst e e')|exact Ep]. }
  rewrite X. exact H.
Qed.
Lemma eval_call_subst : forall e e', env_rel e e' -> forall sch args kw rs,
  eval_call T W e sch args kw = Some rs ->
  eval_call T W e' sch (map (subst_arg rho) args)
    (map (fun p => (fst p, subst_arg rho (snd p))) kw) = Some rs.
Proof.
  intros e e' R sch args kw rs H. unfold eval_call in *.
  destruct (eval_params T W e args kw 0 (s_params sch)) as [vs|] eqn:E; [|discriminate].
  now rewrite (eval_params_subst e e' R _ _ _ _ _ E).
Qed.
Lemma lit_not_list : forall l v, lit_val T W l = Some (RList v) -> False.
Proof. intros [] v; cbn; try discriminate. destruct c; discriminate. Qed.
Lemma node_value_subst : forall e e', env_rel e e' -> forall n o,
  is_placeholder n = false -> n_op n <> Output ->
  node_value T W e n = Some o -> node_value T W e' (with_args (subst_arg rho) n) = Some o.
Proof.
  intros e e' R [nm o args kw ty tys sc z fp] v Hp Ho H. unfold node_value, with_args in *. cbn in *.
  destruct o as [|obj|[| sch | sch | sch |]| |]; try congruence; try discriminate.
  - destruct args as [|[r|l|l|l] [|[m|[| | i | | | | |]| |] [|]]]; try discriminate. cbn.
    specialize (R r). destruct (rho r) as [l|].
    + destruct R as [E|(w & E & L)]; rewrite E in H; [discriminate|].
      destruct w; try discriminate. now apply lit_not_list in L.
    + now rewrite R.
  - destruct (eval_call T W e sch args kw) as [rs|] eqn:E; [|discriminate].
    now rewrite (eval_call_subst e e' R _ _ _ _ E).
  - destruct (eval_call T W e sch args kw) as [rs|] eqn:E; [|discriminate].
    now rewrite (eval_call_subst e e' R _ _ _ _ E).
  - destruct (eval_call T W e sch [] kw) as [rs|] eqn:E; [|discriminate].
    apply (eval_call_subst e e' R) in E. cbn in E. now rewrite E.
Qed.
Lemma out_args_subst : forall n,
  out_args (with_args (subst_arg rho) n) = map (subst_arg rho) (out_args n).
Proof.
  intros [nm o args kw ty tys sc z fp]. unfold out_args, with_args. cbn.
  destruct args as [|[m|l|l|l] r]; cbn; try reflexivity. now destruct (rho m).
Qed.
Lemma mapM_subst : forall e e', env_rel e e' -> forall l vs,
  mapM (eval_arg T W e None) l = Some vs ->
  mapM (eval_arg T W e' None) (map (subst_arg rho) l) = Some vs.
Proof.
  intros e e' R l. induction l as [|a l IH]; intros vs H; cbn in *; [exact H|].
  destruct (eval_arg T W e None a) as [v|] eqn:E; [|discriminate].
  rewrite (eval_arg_subst e e' R _ _ _ E). cbn [obind] in *.
  destruct (mapM (eval_arg T W e None) l) as [ws|]; [|discriminate].
  now rewrite (IH ws eq_refl).
Qed.
Lemma env_rel_both : forall e e' n f, env_rel e e' -> rho n = None ->
  env_rel ((n, f) :: e) ((n, f) :: e').
Proof.
  intros e e' n f R Hn s. cbn [sget]. specialize (R s).
  destruct (String.eqb_spec n s) as [<-|]; [now rewrite Hn|exact R].
Qed.

(** Every remaining node keeps its value. *)
Lemma run_frozen : forall ns,
  (forall n, In n ns -> rho (n_name n) <> None -> is_placeholder n = true) ->
  forall e e' user ins efin outs, env_rel e e' ->
  full_inputs T W rho ns user = Some ins ->
  fx_run T W e ns ins = Some (efin, outs) ->
  exists efin', fx_run T W e' (sub_graph rho ns) user = Some (efin', outs) /\ env_rel efin efin'.
Proof.
  intros ns. induction ns as [|n ns IH]; intros Hp e e' user ins efin outs R Hf H.
  - cbn in *. destruct user; [|discriminate]. injection Hf as <-. injection H as <- <-.
    exists e'. auto.
  - assert (Hp' : forall m, In m ns -> rho (n_name m) <> None -> is_placeholder m = true).
    { intros m Hm. apply Hp. now right. }
    assert (Pn : rho (n_name n) <> None -> is_placeholder n = true) by (apply Hp; now left).
    unfold sub_graph, remaining in *. cbn [filter]. cbn [full_inputs] in Hf. cbn [fx_run] in H.
    destruct (is_placeholder n) eqn:Ep.
    + assert (Eo : n_op n = Placeholder) by (unfold is_placeholder in Ep; destruct (n_op n); congruence).
      rewrite Eo in H. destruct (rho (n_name n)) as [l|] eqn:Er.
      * destruct (lit_val T W l) as [v|] eqn:El; [|discriminate]. cbn [obind] in Hf.
        destruct (full_inputs T W rho ns user) as [vs|] eqn:Ef; [|discriminate]. cbn [obind] in Hf.
        injection Hf as <-. cbn in H. apply (IH Hp' _ e' user vs _ _) in H; auto.
        intros s. cbn [sget]. specialize (R s). destruct (String.eqb_spec (n_name n) s) as [<-|]; [|exact R].
        rewrite Er. right. now exists v.
      * destruct user as [|v u]; [discriminate|].
        destruct (full_inputs T W rho ns u) as [vs|] eqn:Ef; [|discriminate]. cbn [obind] in Hf.
        injection Hf as <-. cbn [map fx_run with_args n_op n_name]. rewrite Eo.
        apply (IH Hp' _ ((n_name n, FOne v) :: e') u vs _ _) in H; auto. now apply env_rel_both.
    + assert (Er : rho (n_name n) = None).
      { destruct (rho (n_name n)) eqn:E; [|reflexivity]. assert (X := Pn ltac:(discriminate)). congruence. }
      rewrite Er. cbn [map fx_run].
      assert (Eo : n_op (with_args (subst_arg rho) n) = n_op n) by reflexivity.
      assert (En : n_name (with_args (subst_arg rho) n) = n_name n) by reflexivity.
      rewrite Eo, En.
      assert (D : n_op n = Output \/ n_op n <> Output) by (destruct (n_op n); ((now left) || (right; discriminate))).
      destruct D as [D|D].
      * rewrite D in *. rewrite out_args_subst.
        destruct (mapM (eval_arg T W e None) (out_args n)) as [os|] eqn:Em; [|discriminate]. cbn [obind] in H.
        rewrite (mapM_subst e e' R _ _ Em). cbn [obind].
        destruct (fx_run T W e ns ins) as [[e2 o2]|] eqn:E2; [|discriminate]. cbn [obind] in H.
        injection H as <- <-. destruct (IH Hp' e e' user ins _ _ R Hf E2) as (f' & F & G).
        rewrite F. cbn [obind]. exists f'. auto.
      * assert (H' : obind (node_value T W e n) (fun f =>
            fx_run T W (match f with Some x => (n_name n, x) :: e | None => e end) ns ins) = Some (efin, outs)).
        { unfold is_placeholder in Ep. destruct (n_op n); try congruence; exact H. }
        destruct (node_value T W e n) as [f|] eqn:Ev; [|discriminate]. cbn [obind] in H'.
        apply (node_value_subst e e' R) in Ev; auto.
        assert (R' : env_rel (match f with Some x => (n_name n, x) :: e | None => e end)
                             (match f with Some x => (n_name n, x) :: e' | None => e' end)).
        { destruct f; [now apply env_rel_both|exact R]. }
        destruct (IH Hp' _ _ user ins _ _ R' Hf H') as (f' & F & G).
        exists f'. split; [|exact G].
        unfold is_placeholder in Ep. destruct (n_op n); try congruence; rewrite Ev; exact F.
Qed.
End Meaning.

Lemma same_node : forall g, NoDup (map n_name g) -> forall m n, In m g -> In n g ->
  n_name m = n_name n -> m = n.
Proof.
  intros g. induction g as [|a g IH]; cbn; intros Nd m n Hm Hn E; [contradiction|].
  inversion Nd; subst. destruct Hm as [->|Hm], Hn as [->|Hn]; auto.
  - exfalso. apply H1. rewrite E. now apply in_map.
  - exfalso. apply H1. rewrite <- E. now apply in_map.
Qed.
Lemma frozen_are_placeholders : forall reps g, NoDup (map n_name g) ->
  forall n, In n g -> frozen_inputs reps g (n_name n) <> None -> is_placeholder n = true.
Proof.
  intros reps g Nd n Hn H. unfold frozen_inputs in H. destruct (existsb _ g) eqn:Ex; [|congruence].
  apply existsb_exists in Ex. destruct Ex as (m & Hm & E). apply andb_true_iff in E. destruct E as [Ep En].
  apply String.eqb_eq in En. now rewrite <- (same_node g Nd m n Hm Hn En).
Qed.

(** C89. A frozen graph run on the user's inputs returns what the program returns with its
    state in place, and every remaining node has the same value. *)
Theorem C89_freezing_preserves_meaning : forall T W reps g user ins efin outs,
  NoDup (map n_name g) ->
  full_inputs T W (frozen_inputs reps g) g user = Some ins ->
  fx_run T W [] g ins = Some (efin, outs) ->
  exists efin', fx_run T W [] (freeze reps g) user = Some (efin', outs) /\
    forall n, In n (freeze reps g) -> sget efin' (n_name n) = sget efin (n_name n).
Proof.
  intros T W reps g user ins efin outs Nd Hf Hr.
  destruct (run_frozen T W (frozen_inputs reps g) g (frozen_are_placeholders reps g Nd)
    [] [] user ins efin outs) as (f' & F & R); auto.
  { intros s. destruct (frozen_inputs reps g s); [now left|reflexivity]. }
  rewrite C89_freezing_is_substitution. exists f'. split; [exact F|].
  intros n Hn. apply in_map_iff in Hn. destruct Hn as (m & <- & Hm).
  apply filter_In in Hm. destruct Hm as [_ Hm]. cbn. specialize (R (n_name m)).
  now destruct (frozen_inputs reps g (n_name m)).
Qed.

Lemma full_inputs_len : forall T W rho g user ins, full_inputs T W rho g user = Some ins ->
  (forall n, In n g -> rho (n_name n) <> None -> is_placeholder n = true) ->
  length user = length (placeholders (sub_graph rho g)).
Proof.
  intros T W rho g. induction g as [|n g IH]; intros user ins H Hp; cbn in *.
  - now destruct user.
  - assert (Hp' : forall m, In m g -> rho (n_name m) <> None -> is_placeholder m = true) by auto.
    assert (Pn := Hp n (or_introl eq_refl)). unfold sub_graph, remaining in *. cbn [filter].
    destruct (is_placeholder n) eqn:Ep.
    + destruct (rho (n_name n)) as [l|].
      * destruct (lit_val T W l); [|discriminate]. cbn [obind] in H.
        destruct (full_inputs T W rho g user) eqn:E; [|discriminate]. eauto.
      * destruct user as [|v u]; [discriminate|].
        destruct (full_inputs T W rho g u) eqn:E; [|discriminate].
        unfold placeholders. cbn [map filter with_args n_op].
        unfold is_placeholder in Ep. destruct (n_op n); try discriminate. cbn [length]. f_equal.
        eapply IH; eauto.
    + destruct (rho (n_name n)) eqn:E; [assert (X := Pn ltac:(discriminate)); congruence|].
      unfold placeholders. cbn [map filter with_args n_op].
      unfold is_placeholder in Ep. destruct (n_op n); try discriminate; eapply IH; eauto.
Qed.
Lemma sub_graph_names : forall rho g, map n_name (sub_graph rho g) = map n_name (remaining rho g).
Proof. intros. unfold sub_graph. rewrite map_map. reflexivity. Qed.
Lemma NoDup_filter_map : forall (p : node -> bool) g, NoDup (map n_name g) -> NoDup (map n_name (filter p g)).
Proof.
  intros p g. induction g as [|n g IH]; cbn; intros H; [constructor|]. inversion H; subst.
  destruct (p n); cbn; auto. constructor; auto. intros Hi. apply H2. apply in_map_iff in Hi.
  destruct Hi as (m & Em & Hm). apply in_map_iff. exists m. split; auto. apply filter_In in Hm. tauto.
Qed.

(** C89. The imported block, called with the user's inputs only, returns what the program
    returns with its state in place. *)
Theorem C89_frozen_import_preserves_meaning : forall T W registry x reps user ins efin outs ops ret,
  replacements x = Some reps ->
  pytorch_ok T W registry (freeze reps (x_graph x)) ->
  NoDup (map n_name (x_graph x)) ->
  full_inputs T W (frozen_inputs reps (x_graph x)) (x_graph x) user = Some ins ->
  fx_run T W [] (x_graph x) ins = Some (efin, outs) ->
  meta_ok T (x_graph x) efin ->
  import_frozen registry x = Some (ops, ret) ->
  match ret, outs with
  | Some vs, Some xs => call_block T W ops (map vid vs) user = Some xs
  | None, None => True
  | _, _ => False
  end.
Proof.
  intros T W registry x reps user ins efin outs ops ret Hr Hok Nd Hf Hrun Hm Hi.
  destruct (C89_freezing_preserves_meaning T W reps (x_graph x) user ins efin outs Nd Hf Hrun)
    as (f' & F & Same).
  unfold import_frozen in Hi. rewrite Hr in Hi. cbn [obind] in Hi.
  eapply C07_import_preserves_meaning; eauto.
  - rewrite C89_freezing_is_substitution.
    change (NoDup (map n_name (sub_graph (frozen_inputs reps (x_graph x)) (x_graph x)))).
    rewrite sub_graph_names. now apply NoDup_filter_map.
  - rewrite C89_freezing_is_substitution. eapply full_inputs_len; eauto.
    now apply frozen_are_placeholders.
  - intros n f Hn Hs. rewrite (Same n Hn) in Hs. rewrite C89_freezing_is_substitution in Hn.
    apply in_map_iff in Hn. destruct Hn as (m & <- & Hm'). apply filter_In in Hm'. destruct Hm' as [Hm' _].
    exact (Hm m f Hm' Hs).
Qed.

(** The documentation says that buffers are in the state dict; a non-persistent buffer is
    kept in [constants] only, and the import of such a program is refused. *)
Theorem C89_buffer_kept_in_constants_refuted : exists x c,
  x_constants x = Some c /\
  (forall i s, In (i, s) (x_buffers x) -> sget (x_state x) s <> None \/ sget c s <> None) /\
  replacements x = None.
Proof.
  exists (Exported [] (Some [("rope.cos", LTensor 3 false)]) [] [] [("b_rope_cos", "rope.cos")] [])%string.
  exists [("rope.cos", LTensor 3 false)]%string. split; [reflexivity|]. split; [|reflexivity].
  intros i s [[= <- <-]|[]]. right. cbn. discriminate.
Qed.

(** ** A concrete program: a parameter, a persistent buffer, a lifted constant and a user
    input. *)
Module FrozenExample.
Local Open Scope string_scope.
Definition wher := Sch "torch.aten.where.self" [P "condition" JTensor None;
  P "self" JTensor None; P "other" JTensor None] 1.
Definition nd name o a := Nd name o a [] (Some TyVTensor) None false false false.
Definition g : graph := [
  nd "p_w" Placeholder []; nd "b_m" Placeholder []; nd "c_k" Placeholder []; nd "x" Placeholder [];
  nd "a" (Call (TConcrete wher)) [ANode "b_m"; ANode "x"; ANode "p_w"];
  nd "b" (Call (TConcrete wher)) [ANode "c_k"; ANode "a"; ANode "p_w"];
  nd "output" Output [ATuple [ANode "b"; ANode "a"]]].
Definition x : exported := Exported g (Some [("k", LTensor 9 false)])
  [("w", LTensor 1 false); ("m", LTensor 2 true)] [("c_k", "k")] [("b_m", "m")] [("p_w", "w")].
Definition sem (n : string) (l : list (rv Z)) : option (list (rv Z)) :=
  if String.eqb n "torch.aten.where.self" then
    match l with [RT c; RT a; RT b] => Some [RT (c + 10 * a + b)] | _ => None end
  else if String.eqb n convert_elt then
    match l with [RT a; RInt k] => Some [RT (a - k)] | _ => None end
  else None.
Definition W : world Z := {| tensor_of := fun i => 100 * Z.of_nat i;
  u8_of := fun i => 100 * Z.of_nat i + 11; num_tensor := fun _ => 0;
  float_of_bool := fun b => if b then 1 else 0; opsem := sem |}.
Definition reg (_ : string) : option schema := None.

Example C89_nonvacuous : exists reps ins efin outs ops ret,
  replacements x = Some reps /\ pytorch_ok Z W reg (freeze reps g) /\ NoDup (map n_name g) /\
  full_inputs Z W (frozen_inputs reps g) g [RT 5] = Some ins /\
  ins = [RT 100; RT 200; RT 900; RT 5] /\
  fx_run Z W [] g ins = Some (efin, Some outs) /\ meta_ok Z g efin /\
  import_frozen reg x = Some (ops, Some ret) /\ outs = [RT 4500; RT 350] /\
  call_block Z W ops (map vid ret) [RT 5] = Some outs.
Proof.
  eexists _, _, _, _, _, _. split; [reflexivity|]. split.
  - cbn. split; [|split; [|split; [|split]]].
    + intros id. change (Some [RT (100 * Z.of_nat id + 11 - bool_code)] = Some [RT (100 * Z.of_nat id)]).
      do 3 f_equal. unfold bool_code. lia.
    + intros sch v sch' _ _ Hr. discriminate.
    + intros n sch a kw sch' e rs Hn Ho.
      simpl in Hn; repeat destruct Hn as [<-|Hn]; try contradiction; discriminate Ho.
    + intros n sch Hn Ho.
      simpl in Hn; repeat destruct Hn as [<-|Hn]; try contradiction; discriminate Ho.
    + assert (G : forall h m, forallb (fun n => negb (n_scalar n)) h = true -> g_scalar h m = false).
      { intros h m Hh. unfold g_scalar. destruct (find_node h m) as [z|] eqn:Ez; [|reflexivity].
        apply find_some in Ez. rewrite forallb_forall in Hh. destruct Ez as [Ez _].
        apply Hh in Ez. now destruct (n_scalar z). }
      intros n Hn. split; [|split]; intros; intros (i & p & m & _ & _ & _ & Hg);
      rewrite G in Hg by reflexivity; discriminate.
  - split.
    + cbn. repeat (constructor; [cbn; intuition discriminate|]). constructor.
    + split; [reflexivity|]. split; [reflexivity|]. split; [vm_compute; reflexivity|]. split.
      * intros n f Hn Hf.
        simpl in Hn; repeat destruct Hn as [<-|Hn]; try contradiction; vm_compute in Hf; try discriminate;
        injection Hf as <-; simpl; repeat split; try discriminate; intros; simpl in *;
        repeat match goal with H : Some _ = Some _ |- _ => injection H; clear H; intros; subst end;
        simpl; auto; try discriminate.
      * split; [vm_compute; reflexivity|]. split; vm_compute; reflexivity.
Qed.
End FrozenExample.

Print Assumptions C89_state_of_an_input.
Print Assumptions C89_freezing_is_substitution.
Print Assumptions C89_freezing_preserves_meaning.
Print Assumptions C89_frozen_import_preserves_meaning.
Print Assumptions C89_buffer_kept_in_constants_refuted.
