(** The program with global slots does what the program with objects does. *)
From Coq Require Import Bool PeanoNat String Lia List.
From Verif Require Import Prelude GlobalizeModel GlobalizeSpec.
Import ListNotations.
Open Scope string_scope.
Open Scope list_scope.
Open Scope nat_scope.

Ltac inj H := injection H; clear H; intros; subst.

(** Induction over operations and blocks *)
Section Trees.
Context (P : op -> Prop) (Q : block -> Prop).
Context (get_case : forall r x n, P (GetAttr r x n)) (set_case : forall x n v, P (SetAttr x n v)).
Context (call_case : forall rs f args, P (Call rs f args)) (other_case : forall k rs args, P (Other k rs args)).
Context (if_case : forall rs c b b', Q b -> Q b' -> P (If rs c b b')).
Context (loop_case : forall rs n c inits params b, Q b -> P (Loop rs n c inits params b)).
Context (block_case : forall body yielded, Forall P body -> Q (Block body yielded)).
Fixpoint op_tree (o : op) : P o :=
  match o with
  | GetAttr r x n => get_case r x n
  | SetAttr x n v => set_case x n v
  | Call rs f args => call_case rs f args
  | Other k rs args => other_case k rs args
  | If rs c b b' => if_case rs c b b' (block_tree b) (block_tree b')
  | Loop rs n c inits params b => loop_case rs n c inits params b (block_tree b)
  end
with block_tree (b : block) : Q b :=
  match b with
  | Block body yielded => block_case body yielded ((fix all (l : list op) : Forall P l := match l with [] => Forall_nil P | o :: r => Forall_cons o (op_tree o) (all r) end) body)
  end.
End Trees.

(** The sequences inside the blocks, with equations *)
Fixpoint conforms_ops (l : list op) : bool := match l with [] => true | o :: r => conforms o && conforms_ops r end.
Lemma conforms_block body yielded : conforms_in (Block body yielded) = conforms_ops body && plain yielded.
Proof. reflexivity. Qed.
Definition rewrite_ops (ms : list nn_module) (gl : nat -> string -> option string) (nm : mono -> option string) :=
  fix all (l : list op) (mu : mapping) : option (list top) :=
    match l with [] => Some [] | o :: r => do (t, mu) <- rewrite_op ms gl nm mu o; do ts <- all r mu; Some (t ++ ts) end.
Lemma rewrite_block_eq ms gl nm mu body yielded :
  rewrite_block ms gl nm mu (Block body yielded) = do ops <- rewrite_ops ms gl nm body mu; Some (TBlock ops (map fst yielded)).
Proof. reflexivity. Qed.
Lemma conforms_if rs c b b' : conforms (If rs c b b') = plain [c] && conforms_in b && conforms_in b'.
Proof. reflexivity. Qed.
Lemma conforms_loop rs n c inits params b : conforms (Loop rs n c inits params b) = plain [n; c] && plain inits && conforms_in b.
Proof. reflexivity. Qed.
Lemma rewrite_if ms gl nm mu rs c b b' :
  rewrite_op ms gl nm mu (If rs c b b') = do t <- rewrite_block ms gl nm mu b; do t' <- rewrite_block ms gl nm mu b'; Some ([TIf (map fst rs) (fst c) t t'], mu).
Proof. reflexivity. Qed.
Lemma rewrite_loop ms gl nm mu rs n c inits params b :
  rewrite_op ms gl nm mu (Loop rs n c inits params b) = do t <- rewrite_block ms gl nm mu b; Some ([TLoop (map fst rs) (fst n) (fst c) (map fst inits) (map fst params) t], mu).
Proof. reflexivity. Qed.
Section Sequences.
Context (w : world).
Lemma run_if call rs c b b' e s : run_op w call (If rs c b b') e s =
  do x <- get w e c;
  match x with
  | Dat _ d => do t <- truth w d; do (ys, s) <- (if t then run_block w call b e s else run_block w call b' e s); do e <- bind w rs ys e; Some (e, s)
  | Obj _ _ => None
  end.
Proof. reflexivity. Qed.
Lemma run_loop call rs n c inits params b e s : run_op w call (Loop rs n c inits params b) e s =
  do x <- get w e n; do y <- get w e c; do xs <- gets w e inits;
  match x, y with
  | Dat _ x, Dat _ y =>
      do n <- trips w x; do c <- truth w y;
      do (ys, s) <- iterate w (fun xs s => do e <- bind w params xs e; run_block w call b e s) n 0 c xs s;
      do e <- bind w rs ys e; Some (e, s)
  | _, _ => None
  end.
Proof. reflexivity. Qed.
Lemma trun_if call rs c b b' e s : trun_op w call (TIf rs c b b') e s =
  do d <- tget w e c; do t <- truth w d; do (ys, s) <- (if t then trun_block w call b e s else trun_block w call b' e s); do e <- tbind w rs ys e; Some (e, s).
Proof. reflexivity. Qed.
Lemma trun_loop call rs n c inits params b e s : trun_op w call (TLoop rs n c inits params b) e s =
  do x <- tget w e n; do y <- tget w e c; do xs <- tgets w e inits; do n <- trips w x; do c <- truth w y;
  do (ys, s) <- titerate w (fun xs s => do e <- tbind w params xs e; trun_block w call b e s) n 0 c xs s;
  do e <- tbind w rs ys e; Some (e, s).
Proof. reflexivity. Qed.
Definition run_ops (call : string -> list (thing w) -> state w -> option (list (thing w) * state w)) :=
  fix all (l : list op) (e : env w) (s : state w) : option (env w * state w) :=
    match l with [] => Some (e, s) | o :: r => do (e, s) <- run_op w call o e s; all r e s end.
Lemma run_block_eq call body yielded e s :
  run_block w call (Block body yielded) e s = do (e, s) <- run_ops call body e s; do ys <- gets w e yielded; Some (ys, s).
Proof. reflexivity. Qed.
Definition trun_ops (call : string -> list (datum w) -> gstate w -> option (list (datum w) * gstate w)) :=
  fix all (l : list top) (e : tenv w) (s : gstate w) : option (tenv w * gstate w) :=
    match l with [] => Some (e, s) | o :: r => do (e, s) <- trun_op w call o e s; all r e s end.
Lemma trun_block_eq call body yielded e s :
  trun_block w call (TBlock body yielded) e s = do (e, s) <- trun_ops call body e s; do ys <- tgets w e yielded; Some (ys, s).
Proof. reflexivity. Qed.
Lemma trun_ops_app call l l' e s : trun_ops call (l ++ l') e s = do (e, s) <- trun_ops call l e s; trun_ops call l' e s.
Proof.
  revert e s. induction l as [|o l IH]; intros e s; [reflexivity|]. cbn [app trun_ops].
  destruct (trun_op w call o e s) as [[e1 s1]|]; cbn [obind]; [apply IH|reflexivity].
Qed.
End Sequences.

Section Simulation.
Context (w : world) (ms : list nn_module) (gl : nat -> string -> option string) (nm : mono -> option string).
Context (one_slot : forall i n i' n' h, gl i n = Some h -> gl i' n' = Some h -> i = i' /\ n = n').
Notation agree := (agree w ms gl).
Arguments Obj {w}. Arguments Dat {w}.

Definition at_env {A} (l : list (nat * A)) (v : nat) : option A := option_map snd (find (fun p => fst p =? v) l).
Definition related (e : env w) (e' : tenv w) (mu : mapping) : Prop :=
  forall v, match at_env e v with Some (Obj i) => at_env mu v = Some i | Some (Dat d) => at_env e' v = Some d | None => True end.

Lemma at_cons {A} (l : list (nat * A)) k x v : at_env ((k, x) :: l) v = if k =? v then Some x else at_env l v.
Proof. unfold at_env. cbn [find fst]. destruct (k =? v); reflexivity. Qed.
Lemma related_dat e e' mu v d : related e e' mu -> related ((v, Dat d) :: e) ((v, d) :: e') mu.
Proof. intros R u. rewrite !at_cons. destruct (v =? u); [reflexivity|exact (R u)]. Qed.
Lemma related_obj e e' mu v i : related e e' mu -> related ((v, Obj i) :: e) e' ((v, i) :: mu).
Proof. intros R u. rewrite !at_cons. destruct (v =? u); [reflexivity|exact (R u)]. Qed.

Lemma get_spec e v x : get w e v = Some x -> at_env e (fst v) = Some x /\ kind w (snd v) x = true.
Proof.
  unfold get, at_env. destruct (find _ e) as [[k y]|]; cbn; [|discriminate].
  destruct (kind w (snd v) y) eqn:K; [|discriminate]. intros H. inj H. split; [reflexivity|assumption].
Qed.
Lemma get_dat e e' mu v x : related e e' mu -> is_module v = false -> get w e v = Some x -> exists d, x = Dat d /\ tget w e' (fst v) = Some d.
Proof.
  intros R M G. apply get_spec in G. destruct G as [G K]. specialize (R (fst v)). rewrite G in R.
  unfold is_module in M. destruct (snd v); [discriminate|]. destruct x as [i|d]; [discriminate|]. exists d. split; [reflexivity|exact R].
Qed.
Lemma get_obj e e' mu v x : related e e' mu -> is_module v = true -> get w e v = Some x -> exists i, x = Obj i /\ mapped mu v = Some i.
Proof.
  intros R M G. apply get_spec in G. destruct G as [G K]. specialize (R (fst v)). rewrite G in R.
  unfold is_module in M. destruct (snd v); [|discriminate]. destruct x as [i|d]; [|discriminate]. exists i. split; [reflexivity|exact R].
Qed.
Lemma get_receiver e e' mu v i : related e e' mu -> get w e v = Some (Obj i) -> mapped mu v = Some i.
Proof. intros R G. apply get_spec in G. destruct G as [G K]. specialize (R (fst v)). rewrite G in R. exact R. Qed.
Lemma gets_plain e e' mu l xs : related e e' mu -> plain l = true -> gets w e l = Some xs ->
  xs = map Dat (data_of w xs) /\ tgets w e' (map fst l) = Some (data_of w xs).
Proof.
  intros R. revert xs. induction l as [|v l IH]; intros xs; cbn [plain forallb gets map tgets].
  - intros _ H. inj H. split; reflexivity.
  - intros P G. apply andb_prop in P. destruct P as [P P2]. apply negb_true_iff in P.
    destruct (get w e v) as [x|] eqn:X; [|discriminate]. cbn [obind] in G.
    destruct (gets w e l) as [ys|] eqn:Y; [|discriminate]. cbn [obind] in G. inj G.
    destruct (get_dat _ _ _ _ _ R P X) as (d & -> & T). destruct (IH _ P2 eq_refl) as [H1 H2].
    rewrite T, H2. cbn [data_of map obind]. split; [f_equal; exact H1|reflexivity].
Qed.
Lemma gets_call e e' mu l xs k il : related e e' mu -> gets w e l = Some xs -> instances_of mu k l = Some il ->
  il = modules_at w k xs /\ tgets w e' (data l) = Some (data_of w xs).
Proof.
  intros R. revert xs k il. unfold data. induction l as [|v l IH]; intros xs k il; cbn [gets instances_of filter].
  - intros H K. inj H. inj K. split; reflexivity.
  - intros G H. destruct (get w e v) as [x|] eqn:X; [|discriminate]. cbn [obind] in G.
    destruct (gets w e l) as [ys|] eqn:Y; [|discriminate]. cbn [obind] in G. inj G.
    destruct (is_module v) eqn:M; cbn [negb].
    + destruct (get_obj _ _ _ _ _ R M X) as (i & -> & T). rewrite T in H. cbn [obind] in H.
      destruct (instances_of mu (S k) l) as [il'|] eqn:L; [|discriminate]. cbn [obind] in H. inj H.
      destruct (IH _ _ _ eq_refl L) as [-> H2]. split; [reflexivity|exact H2].
    + destruct (get_dat _ _ _ _ _ R M X) as (d & -> & T). destruct (IH _ _ _ eq_refl H) as [-> H2].
      split; [reflexivity|]. cbn [map tgets data_of]. rewrite T, H2. reflexivity.
Qed.
Lemma bind_plain e e' mu rs ds e1 : related e e' mu -> bind w rs (map Dat ds) e = Some e1 ->
  exists e1', tbind w (map fst rs) ds e' = Some e1' /\ related e1 e1' mu.
Proof.
  revert ds e e'. induction rs as [|r rs IH]; intros [|d ds] e e' R; cbn [bind map tbind]; try discriminate.
  - intros H. inj H. exists e'. split; [reflexivity|assumption].
  - destruct (kind w (snd r) (Dat d)); [|discriminate]. intros H. exact (IH _ _ _ (related_dat _ _ _ _ _ R) H).
Qed.
Lemma bind_start args pre rest xs e e' mu e1 mu1 :
  args = pre ++ rest -> related e e' mu -> bind w rest xs e = Some e1 -> start args (modules_at w (List.length pre) xs) mu = Some mu1 ->
  exists e1', tbind w (data rest) (data_of w xs) e' = Some e1' /\ related e1 e1' mu1.
Proof.
  revert pre xs e e' mu. induction rest as [|v rest IH]; intros pre [|x xs] e e' mu A R; cbn [bind]; try discriminate.
  - intros H K. inj H. cbn in K. inj K. exists e'. split; [reflexivity|assumption].
  - destruct (kind w (snd v) x) eqn:K; [|discriminate]. intros B T.
    assert (A' : args = (pre ++ [v]) ++ rest) by (rewrite A, <- app_assoc; reflexivity).
    assert (L : List.length (pre ++ [v]) = S (List.length pre)) by (rewrite app_length; cbn; lia).
    unfold data. cbn [filter]. unfold is_module at 1. destruct (snd v) as [c|] eqn:Y; destruct x as [i|d]; try discriminate; cbn [negb modules_at data_of map] in *.
    + cbn [start] in T. rewrite A in T at 1. rewrite nth_error_app2 in T by lia. rewrite Nat.sub_diag in T. cbn [nth_error obind] in T.
      rewrite <- L in T. exact (IH _ _ _ _ _ A' (related_obj _ _ _ _ _ R) B T).
    + cbn [tbind]. rewrite <- L in T. exact (IH _ _ _ _ _ A' (related_dat _ _ _ _ _ R) B T).
Qed.
Lemma plain_data_spec xs ds : plain_data w xs = Some ds -> ds = data_of w xs.
Proof.
  revert ds. induction xs as [|[i|d] xs IH]; intros ds; cbn [plain_data data_of]; [intros H; inj H; reflexivity|discriminate|].
  destruct (plain_data w xs) as [ds'|]; [|discriminate]. cbn [obind]. intros H. inj H. f_equal. apply IH. reflexivity.
Qed.
Lemma data_of_map ds : data_of w (map Dat ds) = ds.
Proof. induction ds as [|d ds IH]; [reflexivity|]. cbn. f_equal. exact IH. Qed.

Lemma agree_update s g i n d h : agree s g -> gl i n = Some h -> agree (update w s i n (Dat d)) (gupdate w g h d).
Proof.
  intros [A1 A2] G. split.
  - intros i' n' d' h'. unfold update, gupdate. destruct ((i' =? i) && String.eqb n' n) eqn:E.
    + apply andb_prop in E. destruct E as [E1 E2]. apply Nat.eqb_eq in E1. apply String.eqb_eq in E2. subst.
      intros H K. inj H. rewrite G in K. inj K. rewrite String.eqb_refl. reflexivity.
    + intros H K. destruct (String.eqb h' h) eqn:E2; [|exact (A1 _ _ _ _ H K)].
      apply String.eqb_eq in E2. subst h'. destruct (one_slot _ _ _ _ _ G K) as [-> ->].
      rewrite Nat.eqb_refl, String.eqb_refl in E. discriminate.
  - intros i' n' j. unfold update. destruct ((i' =? i) && String.eqb n' n); [discriminate|apply A2].
Qed.

Section Calls.
Context (call : string -> list (thing w) -> state w -> option (list (thing w) * state w))
        (tcall : string -> list (datum w) -> gstate w -> option (list (datum w) * gstate w)).
Context (calls_agree : forall f xs s ys s' g h,
  call f xs s = Some (ys, s') -> nm (f, modules_at w 0 xs) = Some h -> agree (fst s) g ->
  ys = map Dat (data_of w ys) /\
  exists g', tcall h (data_of w xs) (g, snd s) = Some (data_of w ys, (g', snd s')) /\ agree (fst s') g').

Definition op_simulated (o : op) : Prop := forall mu ts mu' e e' s g e1 s1,
  rewrite_op ms gl nm mu o = Some (ts, mu') -> conforms o = true -> related e e' mu -> agree (fst s) g ->
  run_op w call o e s = Some (e1, s1) ->
  exists e1' g1, trun_ops w tcall ts e' (g, snd s) = Some (e1', (g1, snd s1)) /\ related e1 e1' mu' /\ agree (fst s1) g1.
Definition block_simulated (b : block) : Prop := forall mu t e e' s g ys s1,
  rewrite_block ms gl nm mu b = Some t -> conforms_in b = true -> related e e' mu -> agree (fst s) g ->
  run_block w call b e s = Some (ys, s1) ->
  ys = map Dat (data_of w ys) /\
  exists g1, trun_block w tcall t e' (g, snd s) = Some (data_of w ys, (g1, snd s1)) /\ agree (fst s1) g1.

Lemma iterate_simulated params b t mu e e' n k c ds s g ys s1 :
  block_simulated b -> rewrite_block ms gl nm mu b = Some t -> conforms_in b = true -> related e e' mu -> agree (fst s) g ->
  iterate w (fun xs s => do e <- bind w params xs e; run_block w call b e s) n k c (map Dat ds) s = Some (ys, s1) ->
  ys = map Dat (data_of w ys) /\
  exists g1, titerate w (fun xs s => do e <- tbind w (map fst params) xs e'; trun_block w tcall t e s) n k c ds (g, snd s) = Some (data_of w ys, (g1, snd s1)) /\ agree (fst s1) g1.
Proof.
  intros IH B C R. revert k c ds s g. induction n as [|n IHn]; intros k c ds s g A; cbn [iterate titerate].
  - intros H. inj H. rewrite data_of_map. split; [reflexivity|]. exists g. split; [reflexivity|assumption].
  - destruct c.
    2: { intros H. inj H. rewrite data_of_map. split; [reflexivity|]. exists g. split; [reflexivity|assumption]. }
    change (Dat (index w k) :: map Dat ds) with (map (@Dat w) (index w k :: ds)).
    destruct (bind w params (map Dat (index w k :: ds)) e) as [e2|] eqn:B2; [|discriminate]. cbn [obind].
    destruct (bind_plain _ _ _ _ _ _ R B2) as (e2' & T2 & R2). rewrite T2. cbn [obind].
    destruct (run_block w call b e2 s) as [[zs s2]|] eqn:RB; [|discriminate]. cbn [obind].
    destruct (IH _ _ _ _ _ _ _ _ B C R2 A RB) as (Z & g2 & T & A2). rewrite T. cbn [obind].
    destruct zs as [|[i|x] zs]; try discriminate. cbn [data_of] in Z |- *. cbn [map] in Z. injection Z as Z.
    destruct (truth w x) as [c|]; [|discriminate]. cbn [obind]. intros H.
    rewrite Z in H. destruct (IHn _ _ _ _ _ A2 H) as (Z3 & g3 & T3 & A3). split; [exact Z3|].
    exists g3. split; [exact T3|exact A3].
Qed.

Lemma one_op t e s : trun_ops w tcall [t] e s = trun_op w tcall t e s.
Proof. cbn [trun_ops]. destruct (trun_op w tcall t e s) as [[e1 s1]|]; reflexivity. Qed.
Lemma get_case r x n : op_simulated (GetAttr r x n).
Proof.
  intros mu ts mu' e e' s g e1 s1 W _ R A H. cbn [rewrite_op run_op] in W, H.
  destruct (get w e x) as [[i|d]|] eqn:G; try discriminate. cbn [obind] in H.
  pose proof (get_receiver _ _ _ _ _ R G) as M.
  destruct (fst s i n) as [y|] eqn:Y; [|discriminate]. cbn [obind bind] in H.
  destruct (kind w (snd r) y) eqn:K; [|discriminate]. cbn [obind] in H. inj H.
  destruct (is_module r) eqn:Mr.
  - unfold read_module in W. rewrite Mr in W.
    unfold is_module in Mr. destruct (snd r); [|discriminate]. destruct y as [j|d]; [|discriminate].
    pose proof A as [_ A2]. destruct (A2 _ _ _ Y) as (m & x' & F1 & F2 & F3).
    rewrite M in W. cbn [obind] in W. rewrite F1 in W. cbn [obind] in W. rewrite F2 in W. cbn [obind] in W. rewrite F3 in W. cbn [obind] in W. inj W.
    exists e', g. split; [reflexivity|]. split; [apply related_obj; assumption|assumption].
  - unfold slot_global in W. rewrite M in W. cbn [obind] in W.
    destruct (find_module ms i) as [m|] eqn:F1; [|discriminate]. cbn [obind] in W.
    destruct (find_slot m n) as [x'|] eqn:F2; [|discriminate]. cbn [obind] in W.
    unfold find_slot in F2. apply find_some in F2. destruct F2 as [_ N]. apply String.eqb_eq in N. rewrite N in W.
    destruct (gl i n) as [h|] eqn:Gl; [|discriminate]. cbn [obind] in W. inj W.
    unfold is_module in Mr. destruct (snd r); [discriminate|]. destruct y as [j|d]; [discriminate|].
    pose proof A as [A1 _]. pose proof (A1 _ _ _ _ Y Gl) as T. rewrite one_op. cbn [trun_op fst snd]. rewrite T. cbn [obind].
    exists ((fst r, d) :: e'), g. split; [reflexivity|]. split; [apply related_dat; assumption|assumption].
Qed.
Lemma set_case x n v : op_simulated (SetAttr x n v).
Proof.
  intros mu ts mu' e e' s g e1 s1 W C R A H. cbn [rewrite_op run_op conforms plain forallb] in W, H, C.
  apply andb_prop in C. destruct C as [C _]. apply negb_true_iff in C.
  destruct (get w e x) as [[i|d]|] eqn:G; try discriminate; cbn [obind] in H;
    destruct (get w e v) as [y|] eqn:Y; cbn [obind] in H; try discriminate.
  destruct (get_dat _ _ _ _ _ R C Y) as (d & -> & T).
  destruct (fst s i n) as [old|] eqn:O; [|discriminate]. cbn [obind] in H. inj H.
  unfold slot_global in W. rewrite (get_receiver _ _ _ _ _ R G) in W. cbn [obind] in W.
  destruct (find_module ms i) as [m|] eqn:F1; [|discriminate]. cbn [obind] in W.
  destruct (find_slot m n) as [x'|] eqn:F2; [|discriminate]. cbn [obind] in W.
  unfold find_slot in F2. apply find_some in F2. destruct F2 as [_ N]. apply String.eqb_eq in N. rewrite N in W.
  destruct (gl i n) as [h|] eqn:Gl; [|discriminate]. cbn [obind] in W. inj W.
  rewrite one_op. cbn [trun_op fst snd]. rewrite T. cbn [obind].
  eexists _, _. split; [reflexivity|]. split; [assumption|]. cbn [fst]. apply agree_update; assumption.
Qed.
Lemma call_case rs f args : op_simulated (Call rs f args).
Proof.
  intros mu ts mu' e e' s g e1 s1 W _ R A H. cbn [rewrite_op run_op] in W, H.
  destruct (gets w e args) as [xs|] eqn:X; [|discriminate]. cbn [obind] in H.
  destruct (call f xs s) as [[ys s2]|] eqn:K; [|discriminate]. cbn [obind] in H.
  destruct (bind w rs ys e) as [e2|] eqn:B; [|discriminate]. cbn [obind] in H. inj H.
  destruct (instances_of mu 0 args) as [il|] eqn:L; [|discriminate]. cbn [obind] in W.
  destruct (gets_call _ _ _ _ _ _ _ R X L) as [-> T].
  destruct (nm (f, modules_at w 0 xs)) as [h|] eqn:N; [|discriminate]. cbn [obind] in W. inj W.
  destruct (calls_agree _ _ _ _ _ _ _ K N A) as (Y & g' & T' & A').
  rewrite Y in B. destruct (bind_plain _ _ _ _ _ _ R B) as (e1' & T1 & R1).
  rewrite one_op. cbn [trun_op]. rewrite T. cbn [obind]. rewrite T'. cbn [obind]. rewrite T1. cbn [obind].
  exists e1', g'. split; [reflexivity|]. split; assumption.
Qed.
Lemma other_case k rs args : op_simulated (Other k rs args).
Proof.
  intros mu ts mu' e e' s g e1 s1 W C R A H. cbn [rewrite_op run_op conforms] in W, H, C. inj W.
  destruct (gets w e args) as [xs|] eqn:X; [|discriminate]. cbn [obind] in H.
  destruct (gets_plain _ _ _ _ _ R C X) as [_ T].
  destruct (plain_data w xs) as [ds|] eqn:P; [|discriminate]. cbn [obind] in H. apply plain_data_spec in P. subst ds.
  destruct (other w k (data_of w xs) (snd s)) as [[ys m]|] eqn:O; [|discriminate]. cbn [obind] in H.
  destruct (bind w rs (map (Dat (w:=w)) ys) e) as [e2|] eqn:B; [|discriminate]. cbn [obind] in H. inj H.
  destruct (bind_plain _ _ _ _ _ _ R B) as (e1' & T1 & R1).
  rewrite one_op. cbn [trun_op fst snd]. rewrite T. cbn [obind]. rewrite O. cbn [obind]. rewrite T1. cbn [obind].
  exists e1', g. split; [reflexivity|]. split; assumption.
Qed.
Lemma if_case rs c b b' : block_simulated b -> block_simulated b' -> op_simulated (If rs c b b').
Proof.
  intros IH IH' mu ts mu' e e' s g e1 s1 W C R A H. rewrite rewrite_if in W. rewrite run_if in H. rewrite conforms_if in C. cbn [plain forallb] in C.
  apply andb_prop in C. destruct C as [C C2]. apply andb_prop in C. destruct C as [C C1]. apply andb_prop in C. destruct C as [C _]. apply negb_true_iff in C.
  destruct (get w e c) as [x|] eqn:X; [|discriminate]. cbn [obind] in H.
  destruct (get_dat _ _ _ _ _ R C X) as (d & -> & T).
  destruct (rewrite_block ms gl nm mu b) as [t|] eqn:W1; [|discriminate]. cbn [obind] in W.
  destruct (rewrite_block ms gl nm mu b') as [t'|] eqn:W2; [|discriminate]. cbn [obind] in W. inj W.
  destruct (truth w d) as [q|] eqn:Q; [|discriminate]. cbn [obind] in H.
  assert (Z : exists ys s2, (if q then run_block w call b e s else run_block w call b' e s) = Some (ys, s2) /\ (do e <- bind w rs ys e; Some (e, s2)) = Some (e1, s1)).
  { destruct (if q then run_block w call b e s else run_block w call b' e s) as [[ys s2]|]; [|discriminate]. exists ys, s2. split; [reflexivity|exact H]. }
  destruct Z as (ys & s2 & Z & B). destruct (bind w rs ys e) as [e2|] eqn:B2; [|discriminate]. cbn [obind] in B. inj B.
  assert (Y : ys = map Dat (data_of w ys) /\ exists g1, (if q then trun_block w tcall t e' (g, snd s) else trun_block w tcall t' e' (g, snd s)) = Some (data_of w ys, (g1, snd s1)) /\ agree (fst s1) g1).
  { destruct q; [exact (IH _ _ _ _ _ _ _ _ W1 C1 R A Z)|exact (IH' _ _ _ _ _ _ _ _ W2 C2 R A Z)]. }
  destruct Y as (Y & g1 & T1 & A1). rewrite Y in B2. destruct (bind_plain _ _ _ _ _ _ R B2) as (e1' & T2 & R2).
  rewrite one_op, trun_if. rewrite T. cbn [obind]. rewrite Q. cbn [obind]. rewrite T1. cbn [obind]. rewrite T2. cbn [obind].
  exists e1', g1. split; [reflexivity|]. split; assumption.
Qed.
Lemma loop_case rs n c inits params b : block_simulated b -> op_simulated (Loop rs n c inits params b).
Proof.
  intros IH mu ts mu' e e' s g e1 s1 W C R A H. rewrite rewrite_loop in W. rewrite run_loop in H. rewrite conforms_loop in C.
  apply andb_prop in C. destruct C as [C C3]. apply andb_prop in C. destruct C as [C C2]. cbn [plain forallb] in C.
  apply andb_prop in C. destruct C as [C0 C1]. apply andb_prop in C1. destruct C1 as [C1 _]. apply negb_true_iff in C0. apply negb_true_iff in C1.
  destruct (get w e n) as [x|] eqn:X; [|discriminate]. cbn [obind] in H.
  destruct (get w e c) as [y|] eqn:Y; [|discriminate]. cbn [obind] in H.
  destruct (gets w e inits) as [xs|] eqn:G; [|discriminate]. cbn [obind] in H.
  destruct (get_dat _ _ _ _ _ R C0 X) as (d & -> & T). destruct (get_dat _ _ _ _ _ R C1 Y) as (d' & -> & T').
  destruct (gets_plain _ _ _ _ _ R C2 G) as [P P'].
  destruct (rewrite_block ms gl nm mu b) as [t|] eqn:W1; [|discriminate]. cbn [obind] in W. inj W.
  destruct (trips w d) as [k|] eqn:K; [|discriminate]. cbn [obind] in H.
  destruct (truth w d') as [q|] eqn:Q; [|discriminate]. cbn [obind] in H.
  destruct (iterate w _ k 0 q xs s) as [[ys s2]|] eqn:Z; [|discriminate]. cbn [obind] in H.
  destruct (bind w rs ys e) as [e2|] eqn:B2; [|discriminate]. cbn [obind] in H. inj H.
  rewrite P in Z. destruct (iterate_simulated _ _ _ _ _ _ _ _ _ _ _ _ _ _ IH W1 C3 R A Z) as (Y' & g1 & T1 & A1).
  rewrite Y' in B2. destruct (bind_plain _ _ _ _ _ _ R B2) as (e1' & T2 & R2).
  rewrite one_op, trun_loop. rewrite T. cbn [obind]. rewrite T'. cbn [obind]. rewrite P'. cbn [obind]. rewrite K. cbn [obind]. rewrite Q. cbn [obind]. rewrite T1. cbn [obind]. rewrite T2. cbn [obind].
  exists e1', g1. split; [reflexivity|]. split; assumption.
Qed.
Lemma ops_simulated l : Forall op_simulated l -> forall mu ts e e' s g e1 s1,
  rewrite_ops ms gl nm l mu = Some ts -> conforms_ops l = true -> related e e' mu -> agree (fst s) g -> run_ops w call l e s = Some (e1, s1) ->
  exists mu' e1' g1, trun_ops w tcall ts e' (g, snd s) = Some (e1', (g1, snd s1)) /\ related e1 e1' mu' /\ agree (fst s1) g1.
Proof.
  induction 1 as [|o l P _ IH]; intros mu ts e e' s g e1 s1 W C R A H; cbn [rewrite_ops run_ops conforms_ops] in W, H, C.
  - inj W. inj H. exists mu, e', g. split; [reflexivity|]. split; assumption.
  - apply andb_prop in C. destruct C as [C C2].
    destruct (rewrite_op ms gl nm mu o) as [[t mu2]|] eqn:W1; [|discriminate]. cbn [obind] in W.
    destruct (rewrite_ops ms gl nm l mu2) as [ts'|] eqn:W2; [|discriminate]. cbn [obind] in W. inj W.
    destruct (run_op w call o e s) as [[e2 s2]|] eqn:H1; [|discriminate]. cbn [obind] in H.
    destruct (P _ _ _ _ _ _ _ _ _ W1 C R A H1) as (e2' & g2 & T & R2 & A2).
    destruct (IH _ _ _ _ _ _ _ _ W2 C2 R2 A2 H) as (mu3 & e3' & g3 & T3 & R3 & A3).
    exists mu3, e3', g3. split; [|split; assumption]. rewrite trun_ops_app, T. cbn [obind]. exact T3.
Qed.
Lemma block_case body yielded : Forall op_simulated body -> block_simulated (Block body yielded).
Proof.
  intros F mu t e e' s g ys s1. rewrite rewrite_block_eq, conforms_block, run_block_eq. intros W C R A H.
  apply andb_prop in C. destruct C as [C C2].
  destruct (rewrite_ops ms gl nm body mu) as [ts|] eqn:W1; [|discriminate]. cbn [obind] in W. inj W.
  destruct (run_ops w call body e s) as [[e2 s2]|] eqn:H1; [|discriminate]. cbn [obind] in H.
  destruct (gets w e2 yielded) as [zs|] eqn:G; [|discriminate]. cbn [obind] in H. inj H.
  destruct (ops_simulated _ F _ _ _ _ _ _ _ _ W1 C R A H1) as (mu2 & e2' & g2 & T & R2 & A2).
  destruct (gets_plain _ _ _ _ _ R2 C2 G) as [P P']. split; [exact P|].
  exists g2. split; [|exact A2]. rewrite trun_block_eq, T. cbn [obind]. rewrite P'. reflexivity.
Qed.
Lemma blocks_simulated b : block_simulated b.
Proof. apply (block_tree op_simulated block_simulated); [apply get_case|apply set_case|apply call_case|apply other_case|apply if_case|apply loop_case|apply block_case]. Qed.
End Calls.
End Simulation.

(** ** Functions *)
Lemma pairs_eqb_eq a b : pairs_eqb a b = true <-> a = b.
Proof.
  revert b. induction a as [|[x y] a IH]; intros [|[x' y'] b]; cbn [pairs_eqb]; split; try discriminate; try reflexivity.
  - intros H. apply andb_prop in H. destruct H as [H H2]. apply andb_prop in H. destruct H as [H H1].
    apply Nat.eqb_eq in H. apply Nat.eqb_eq in H1. apply IH in H2. subst. reflexivity.
  - intros H. inj H. rewrite !Nat.eqb_refl. cbn. apply IH. reflexivity.
Qed.
Lemma mono_eqb_eq a b : mono_eqb a b = true <-> a = b.
Proof.
  destruct a as [f l], b as [f' l']. unfold mono_eqb. cbn [fst snd]. rewrite andb_true_iff, String.eqb_eq, pairs_eqb_eq.
  split; [intros [-> ->]; reflexivity|intros H; inj H; split; reflexivity].
Qed.
Lemma omap_in {A B} (f : A -> option B) l r a : omap f l = Some r -> In a l -> exists b, f a = Some b /\ In b r.
Proof.
  revert r. induction l as [|x l IH]; intros r H [].
  - subst x. cbn [omap] in H. destruct (f a) as [b|]; [|discriminate]. cbn [obind] in H. destruct (omap f l); [|discriminate]. cbn [obind] in H. inj H. exists b. split; [reflexivity|left; reflexivity].
  - cbn [omap] in H. destruct (f x) as [b|]; [|discriminate]. cbn [obind] in H. destruct (omap f l) as [bs|]; [|discriminate]. cbn [obind] in H. inj H.
    destruct (IH _ eq_refl H0) as (b' & E & K). exists b'. split; [exact E|right; exact K].
Qed.
Lemma find_named fs (t : tfunction) : NoDup (map tname fs) -> In t fs -> find (fun g => String.eqb (tname g) (tname t)) fs = Some t.
Proof.
  induction fs as [|u fs IH]; intros N [].
  - subst u. cbn. rewrite String.eqb_refl. reflexivity.
  - cbn [map] in N. inversion N as [|? ? N1 N2]; subst. cbn [find]. destruct (String.eqb (tname u) (tname t)) eqn:Q; [|exact (IH N2 H)].
    apply String.eqb_eq in Q. exfalso. apply N1. rewrite Q. apply in_map. exact H.
Qed.

Section Whole.
Context (w : world) (p : program) (x : info) (l : list (mono * (string * bool))) (fs : list tfunction).
Context (made : omap (new_function p x l) l = Some fs) (distinct : NoDup (map tname fs)).
Context (one_slot : forall i n i' n' h, global_in x i n = Some h -> global_in x i' n' = Some h -> i = i' /\ n = n').
Context (conforming : forallb (fun f => conforms_in (body_of f)) (functions p) = true).
Lemma runs_agree fuel : forall f xs s ys s' g h,
  run w (functions p) fuel f xs s = Some (ys, s') -> name_in l (f, modules_at w 0 xs) = Some h -> agree w (modules p) (global_in x) (fst s) g ->
  ys = map (Dat w) (data_of w ys) /\
  exists g', trun w fs fuel h (data_of w xs) (g, snd s) = Some (data_of w ys, (g', snd s')) /\ agree w (modules p) (global_in x) (fst s') g'.
Proof.
  induction fuel as [|fuel IH]; intros f xs s ys s' g h H N A; [discriminate|]. cbn [run trun] in *.
  destruct (find_function (functions p) f) as [fn|] eqn:F; [|discriminate]. cbn [obind] in H.
  destruct (bind w (arguments fn) xs []) as [e|] eqn:B; [|discriminate]. cbn [obind] in H.
  unfold name_in in N. destruct (find (fun e => mono_eqb (fst e) (f, modules_at w 0 xs)) l) as [[m [h' q]]|] eqn:Fm; [|discriminate].
  cbn in N. inj N. apply find_some in Fm. destruct Fm as [I M]. apply mono_eqb_eq in M. cbn [fst] in M. subst m.
  destruct (omap_in _ _ _ _ made I) as (t & T & It). unfold new_function in T. cbn [fst snd] in T.
  rewrite F in T. cbn [obind] in T.
  destruct (start (arguments fn) (modules_at w 0 xs) []) as [mu|] eqn:S; [|discriminate]. cbn [obind] in T.
  destruct (rewrite_block (modules p) (global_in x) (name_in l) mu (body_of fn)) as [tb|] eqn:W; [|discriminate]. cbn [obind] in T. inj T.
  pose proof (find_named _ _ distinct It) as Fd. cbn [tname] in Fd. rewrite Fd. cbn [obind targuments tbody].
  assert (R0 : related w [] [] []) by (intros v; exact Logic.I).
  pose proof (fun gl H => bind_start w gl H (arguments fn) [] (arguments fn) xs [] [] [] e mu eq_refl R0 B S) as Z. destruct (Z _ one_slot) as (e' & Te & R). rewrite Te. cbn [obind].
  assert (C : conforms_in (body_of fn) = true).
  { rewrite forallb_forall in conforming. apply conforming. unfold find_function in F. apply find_some in F. apply F. }
  exact (blocks_simulated w (modules p) (global_in x) (name_in l) one_slot _ _ IH _ _ _ _ _ _ _ _ _ W C R A H).
Qed.
End Whole.
