From Coq Require Import String Ascii ZArith List Lia Bool Permutation.
From Verif Require Import Prelude AsStridedModel AsStridedSpec AsStridedProofs.
Import ListNotations.
Open Scope Z_scope.

(** ** Fresh names *)
Lemma append_length : forall a b, String.length (a ++ b)%string = (String.length a + String.length b)%nat.
Proof. induction a; simpl; intros; auto. Qed.

Lemma fresh_loop_cands : forall f used name, In (fresh_loop f used name) used ->
  exists cs, length cs = f /\ NoDup cs /\ incl cs used /\
    Forall (fun c => (String.length name <= String.length c)%nat) cs.
Proof.
  induction f; simpl; intros used name H.
  - exists []. repeat split; try constructor. intros x [].
  - destruct (existsb (String.eqb name) used) eqn:E.
    + apply IHf in H. destruct H as (cs & L & ND & I & F).
      exists (name :: cs). simpl. repeat split; auto.
      * constructor; auto. intros Hin. rewrite Forall_forall in F. specialize (F _ Hin).
        rewrite append_length in F. simpl in F. lia.
      * intros x [<-|Hx]; auto. apply existsb_exists in E. destruct E as (y & Hy & Ey).
        apply String.eqb_eq in Ey. now subst.
      * constructor; auto. eapply Forall_impl; [|exact F]. simpl. intros c Hc.
        rewrite append_length in Hc. lia.
    + exfalso. pose proof (existsb_false _ _ _ E _ H) as Hc. rewrite String.eqb_refl in Hc.
      discriminate.
Qed.

Lemma fresh_name_fresh : forall used name, ~ In (fresh_name used name) used.
Proof.
  unfold fresh_name. intros used name H. apply fresh_loop_cands in H.
  destruct H as (cs & L & ND & I & _).
  pose proof (NoDup_incl_length ND I). lia.
Qed.

(** ** What the rewriting loop produces *)
Notation itensor := (list Z * (list Z -> Z))%type.

Definition const_ok (bufs : list (string * itensor)) (c : node) (t : itensor) : Prop :=
  exists a, n_op c = OGetAttr a /\ n_args c = [] /\ n_kwargs c = [] /\ In (a, t) bufs.

Record sinv (attrs : list string) (s : rstate) (names : list string) : Prop := {
  i_nd : NoDup (s_names s);
  i_perm : Permutation (s_names s) names;
  i_bnd : NoDup (map fst (s_bufs s));
  i_binc : incl (map fst (s_bufs s)) (s_attrs s);
  i_bfresh : forall a, In a (map fst (s_bufs s)) -> ~ In a attrs;
  i_ainc : incl attrs (s_attrs s) }.

Lemma constants_spec : forall ts s nname i s' ns attrs names,
  constants s nname i ts = (s', ns) -> sinv attrs s names ->
  sinv attrs s' (map n_name ns ++ names) /\ incl (s_bufs s) (s_bufs s') /\
  Forall2 (const_ok (s_bufs s')) ns ts /\
  (forall c, In c ns -> ~ In (n_name c) (s_names s)).
Proof.
  induction ts as [|t r IH]; intros s nname i s' ns attrs names H I.
  - cbn [constants] in H. inversion H; subst. repeat split; try apply I.
    + apply incl_refl.
    + constructor.
    + intros c [].
  - cbn [constants] in H.
    destruct (constant s nname i t) as [s1 c] eqn:E1.
    destruct (constants s1 nname (S i) r) as [s2 ns2] eqn:E2.
    inversion H; subst; clear H.
    unfold constant in E1.
    set (nm := fresh_name (s_attrs s) _) in *.
    set (nn := fresh_name (s_names s) nm) in *.
    assert (Hnm : ~ In nm (s_attrs s)) by apply fresh_name_fresh.
    assert (Hnn : ~ In nn (s_names s)) by apply fresh_name_fresh.
    inversion E1; subst; clear E1.
    assert (I1 : sinv attrs {| s_attrs := nm :: s_attrs s; s_bufs := (nm, t) :: s_bufs s;
                          s_names := nn :: s_names s |} (nn :: names)).
    { destruct I as [nd pm bnd binc bfr ainc]. split; simpl.
      - constructor; auto.
      - now constructor.
      - constructor; auto.
      - intros x [<-|Hx]; [now left|right; auto].
      - intros a [<-|Ha]; auto.
      - intros x Hx. right. auto. }
    destruct (IH _ _ _ _ _ _ _ E2 I1) as (I2 & Inc & F & Fr).
    repeat split.
    + apply I2.
    + simpl. rewrite (i_perm _ _ _ I2). apply Permutation_sym, Permutation_middle.
    + apply I2.
    + apply I2.
    + apply I2.
    + apply I2.
    + intros x Hx. apply Inc. now right.
    + constructor; auto. exists nm. simpl. repeat split; auto. apply Inc. now left.
    + intros c [<-|Hc]; simpl; auto. specialize (Fr _ Hc). simpl in Fr. tauto.
Qed.

(** The nodes that stand for [n] after the rewrite. *)
Definition strided_seg (g : list node) (bufs : list (string * itensor)) (n : node)
    (seg : list node) : Prop :=
  exists src sizea size stridea stride offa sm off base bm bshape bstride boff coords consts idx,
    get_arg n 0 "self" None = Some (ANode src) /\
    get_arg n 1 "size" None = Some sizea /\ arg_ints sizea = Some size /\
    get_arg n 2 "stride" None = Some stridea /\ arg_ints stridea = Some stride /\
    get_arg n 3 "storage_offset" (Some ANone) = Some offa /\
    node_meta g src = Some sm /\
    (match offa with ANone => m_offset sm | a => arg_int a end) = Some off /\
    base_of (S (length g)) g src = Some base /\
    node_meta g base = Some bm /\
    meta_ints (m_shape bm) = Some bshape /\ meta_ints (m_stride bm) = Some bstride /\
    m_offset bm = Some boff /\
    indices bshape bstride boff size stride off = Some coords /\
    Forall2 (const_ok bufs) consts
      (map (fun d => (size, fun i => nth d (coords i) 0)) (seq 0 (length bshape))) /\
    n_name idx = n_name n /\ n_op idx = OIndex /\ n_kwargs idx = [] /\
    n_args idx = [ANode base; AList (map (fun c => ANode (n_name c)) consts)] /\
    seg = consts ++ [idx].

Definition seg_ok (g : list node) (bufs : list (string * itensor)) (n : node)
    (seg : list node) : Prop :=
  (n_op n <> OAsStrided /\ seg = [n]) \/ (n_op n = OAsStrided /\ strided_seg g bufs n seg).

Lemma const_ok_incl : forall b b' c t, incl b b' -> const_ok b c t -> const_ok b' c t.
Proof. intros b b' c t H (a & ? & ? & ? & ?). exists a. auto. Qed.

Lemma Forall2_impl' : forall A B (P Q : A -> B -> Prop) l m,
  (forall a b, P a b -> Q a b) -> Forall2 P l m -> Forall2 Q l m.
Proof. induction 2; constructor; auto. Qed.

Lemma seg_ok_incl : forall g b b' n seg, incl b b' -> seg_ok g b n seg -> seg_ok g b' n seg.
Proof.
  intros g b b' n seg Hi [H|(H & S)]; [left; auto|right; split; auto].
  unfold strided_seg in *.
  destruct S as (src & sizea & size & stridea & stride & offa & sm & off & base & bm & bshape
    & bstride & boff & coords & consts & idx & S).
  exists src, sizea, size, stridea, stride, offa, sm, off, base, bm, bshape, bstride, boff,
    coords, consts, idx.
  intuition idtac. eapply Forall2_impl'; [|eauto]. intros. eapply const_ok_incl; eauto.
Qed.

Lemma rewrite_node_spec : forall g s n s' seg attrs names,
  n_op n = OAsStrided ->
  rewrite_node g s n = Some (s', seg) -> sinv attrs s (n_name n :: names) ->
  seg_ok g (s_bufs s') n seg /\ sinv attrs s' (map n_name seg ++ names) /\
  incl (s_bufs s) (s_bufs s') .
Proof.
  intros g s n s' seg attrs names Hop H I. unfold rewrite_node in H.
  destruct (get_arg n 0 "self" None) as [source|] eqn:E0; cbn [obind] in H; [|discriminate].
  destruct (get_arg n 1 "size" None) as [sizea|] eqn:E1; cbn [obind] in H; [|discriminate].
  destruct (arg_ints sizea) as [size|] eqn:E2; cbn [obind] in H; [|discriminate].
  destruct (get_arg n 2 "stride" None) as [stridea|] eqn:E3; cbn [obind] in H; [|discriminate].
  destruct (arg_ints stridea) as [stride|] eqn:E4; cbn [obind] in H; [|discriminate].
  destruct (get_arg n 3 "storage_offset" (Some ANone)) as [offa|] eqn:E5; cbn [obind] in H; [|discriminate].
  destruct source as [src| | | |]; cbn [obind] in H; try discriminate.
  destruct (node_meta g src) as [sm|] eqn:E6; cbn [obind] in H; [|discriminate].
  destruct (match offa with ANone => m_offset sm | a => arg_int a end) as [off|] eqn:E7;
    cbn [obind] in H; [|discriminate].
  destruct (base_of (S (length g)) g src) as [base|] eqn:E8; cbn [obind] in H; [|discriminate].
  destruct (node_meta g base) as [bm|] eqn:E9; cbn [obind] in H; [|discriminate].
  destruct (meta_ints (m_shape bm)) as [bshape|] eqn:E10; cbn [obind] in H; [|discriminate].
  destruct (meta_ints (m_stride bm)) as [bstride|] eqn:E11; cbn [obind] in H; [|discriminate].
  destruct (m_offset bm) as [boff|] eqn:E12; cbn [obind] in H; [|discriminate].
  destruct (indices bshape bstride boff size stride off) as [coords|] eqn:E13;
    cbn [obind] in H; [|discriminate].
  destruct (n_meta n) as [nm|] eqn:E14; cbn [obind] in H; [|discriminate].
  destruct (constants s (n_name n) 0 _) as [s2 consts] eqn:E15.
  inversion H; subst s2 seg; clear H.
  destruct (constants_spec _ _ _ _ _ _ _ _ E15 I) as (I2 & Inc & F & Fr).
  split; [|split; auto].
  - right. split; auto. unfold strided_seg.
    exists src, sizea, size, stridea, stride, offa, sm, off, base, bm, bshape, bstride, boff,
      coords, consts, (Build_node (n_name n) OIndex
        [ANode base; AList (map (fun c => ANode (n_name c)) consts)] []
        (Some {| m_shape := map Some size; m_stride := []; m_offset := Some 0;
                 m_storage := 0; m_dtype := m_dtype nm |})).
    repeat match goal with |- _ /\ _ => split end; auto.
  - rewrite map_app. simpl. rewrite <- app_assoc. simpl. exact I2.
Qed.

Lemma rewrite_rev_spec : forall g rn s suffix s' g' attrs,
  rewrite_rev g rn s suffix = Some (s', g') ->
  sinv attrs s (map n_name rn ++ map n_name suffix) ->
  exists segs, Forall2 (seg_ok g (s_bufs s')) (rev rn) segs /\ g' = concat segs ++ suffix /\
    sinv attrs s' (map n_name g') /\ incl (s_bufs s) (s_bufs s').
Proof.
  intros g rn. induction rn as [|n r IH]; intros s suffix s' g' attrs H I.
  - simpl in H. inversion H; subst. exists []. simpl. repeat split; try apply I.
    + constructor.
    + apply incl_refl.
  - cbn [rewrite_rev] in H. destruct (n_op n) eqn:Eop.
    3: {
      destruct (rewrite_node g s n) as [[s1 seg]|] eqn:E; simpl in H; [|discriminate].
      destruct (rewrite_node_spec g s n s1 seg attrs (map n_name r ++ map n_name suffix) Eop E I)
        as (S & I1 & Inc1).
      destruct (IH _ _ _ _ attrs H) as (segs & F & Eg & I2 & Inc2).
      { destruct I1 as [nd pm bnd binc bfr ainc]. split; auto.
        rewrite pm, map_app, !app_assoc. apply Permutation_app_tail, Permutation_app_comm. }
      exists (segs ++ [seg]). repeat split; try apply I2.
      - simpl. apply Forall2_app; auto. constructor; [|constructor].
        eapply seg_ok_incl; eauto.
      - rewrite Eg, concat_app. simpl. now rewrite app_nil_r, <- app_assoc.
      - eapply incl_tran; eauto. }
    all: destruct (IH _ _ _ _ attrs H) as (segs & F & Eg & I2 & Inc2);
      [ destruct I as [nd pm bnd binc bfr ainc]; split; auto;
        rewrite pm; simpl; apply Permutation_middle
      | exists (segs ++ [[n]]); repeat split; try apply I2; auto;
        [ simpl; apply Forall2_app; auto; constructor; [|constructor];
          left; rewrite Eop; split; congruence
        | rewrite Eg, concat_app; simpl; now rewrite <- app_assoc ] ].
Qed.

(** ** Induction over nested arguments *)
Section ArgInd.
Variable P : arg -> Prop.
Hypothesis Hn : forall n, P (ANode n).
Hypothesis Hi : forall z, P (AInt z).
Hypothesis Hnone : P ANone.
Hypothesis Hsym : P ASym.
Hypothesis Hl : forall l, Forall P l -> P (AList l).
Fixpoint arg_ind' (a : arg) : P a :=
  match a with
  | ANode n => Hn n | AInt z => Hi z | ANone => Hnone | ASym => Hsym
  | AList l => Hl l ((fix go (l : list arg) : Forall P l :=
      match l with [] => Forall_nil _ | x :: r => Forall_cons x (arg_ind' x) (go r) end) l)
  end.
End ArgInd.

Section Sim.
Variable A : Type.
Notation value := (value A).
Notation env := (env A).

Lemma eval_arg_list : forall (e : env) l,
  eval_arg A e (AList l) = option_map (RList A) (mapM (eval_arg A e) l).
Proof.
  intros. simpl. f_equal. induction l; simpl; auto.
  rewrite IHl. destruct (eval_arg A e a); simpl; auto.
Qed.

Lemma same_storage_list : forall g st l,
  same_storage_arg g st (AList l) = first_some (same_storage_arg g st) l.
Proof. intros. simpl. induction l; simpl; auto. destruct (same_storage_arg g st a); auto. Qed.

Definition bound (e : env) (n : string) : Prop := lookup A e n <> None.

(** References of an evaluated argument are bound. *)
Lemma same_storage_bound : forall g st (e : env) a r y,
  eval_arg A e a = Some r -> same_storage_arg g st a = Some y ->
  bound e y /\ exists m, node_meta g y = Some m /\ m_storage m = st.
Proof.
  intros g st e a. induction a using arg_ind'; intros r y He Hs; try (simpl in Hs; discriminate).
  - cbn [same_storage_arg] in Hs. cbn [eval_arg] in He.
    destruct (node_meta g n) as [m|] eqn:Em; [|discriminate].
    destruct (Nat.eqb (m_storage m) st) eqn:Es; [|discriminate].
    inversion Hs; subst. apply Nat.eqb_eq in Es. split; eauto.
    unfold bound. destruct (lookup A e y); simpl in He; congruence.
  - rewrite eval_arg_list in He. rewrite same_storage_list in Hs.
    destruct (mapM (eval_arg A e) l) as [vs|] eqn:Ev; simpl in He; [|discriminate].
    clear He r. revert vs Ev Hs. induction H as [|x l Hx Hl IH]; intros vs Ev Hs; [discriminate|].
    simpl in Ev, Hs. destruct (eval_arg A e x) eqn:Ex; simpl in Ev; [|discriminate].
    destruct (mapM (eval_arg A e) l) eqn:El; simpl in Ev; [|discriminate].
    destruct (same_storage_arg g st x) eqn:Esx.
    + inversion Hs; subst. eapply Hx; eauto.
    + eapply IH; eauto.
Qed.

Lemma first_some_in : forall X Y (f : X -> option Y) l y,
  first_some f l = Some y -> exists x, In x l /\ f x = Some y.
Proof.
  induction l; simpl; intros y H; [discriminate|].
  destruct (f a) eqn:E; [inversion H; subst; eauto|].
  destruct (IHl _ H) as (x & ? & ?). eauto.
Qed.

Lemma mapM_in : forall X Y (f : X -> option Y) l r x,
  mapM f l = Some r -> In x l -> exists y, f x = Some y.
Proof.
  intros. destruct (f x) eqn:E; eauto.
  assert (mapM f l = None) by (apply mapM_none; eauto). congruence.
Qed.

Variable input : string -> option value.
Variable sem : nat -> list (argval A) -> list (string * argval A) -> option value.

(** Names bound by a run. *)
Lemma lookup_bound_in : forall attr g e e' n,
  eval_graph A input attr sem e g e' -> bound e' n -> bound e n \/ In n (map n_name g).
Proof.
  induction 1; intros Hb; auto. simpl.
  destruct (IHeval_graph Hb) as [Hc|Hc]; auto.
  unfold bound in Hc. simpl in Hc. destruct (String.eqb (n_name n0) n) eqn:E; auto.
  apply String.eqb_eq in E. auto.
Qed.

Lemma lookup_stable : forall attr g e e' n,
  eval_graph A input attr sem e g e' -> ~ In n (map n_name g) ->
  lookup A e' n = lookup A e n.
Proof.
  induction 1; simpl; intros Hn; auto.
  rewrite IHeval_graph by tauto. simpl.
  destruct (String.eqb (n_name n0) n) eqn:E; auto.
  apply String.eqb_eq in E. tauto.
Qed.

Lemma eval_bound : forall attr g e e' n,
  eval_graph A input attr sem e g e' -> (bound e n \/ In n (map n_name g)) -> bound e' n.
Proof.
  induction 1; simpl; intros [Hb|Hb]; auto.
  - destruct Hb.
  - apply IHeval_graph. left. unfold bound in *. simpl. destruct (String.eqb (n_name n0) n); congruence.
  - apply IHeval_graph. destruct Hb as [<-|Hb]; auto.
    left. unfold bound. simpl. rewrite String.eqb_refl. congruence.
Qed.

Lemma eval_app : forall attr g1 g2 e e',
  eval_graph A input attr sem e (g1 ++ g2) e' <->
  exists em, eval_graph A input attr sem e g1 em /\ eval_graph A input attr sem em g2 e'.
Proof.
  induction g1 as [|n g1 IH]; simpl; intros g2 e e'; split.
  - intros H. exists e. split; auto. constructor.
  - intros (em & H1 & H2). inversion H1; subst. auto.
  - intros H. inversion H; subst. apply IH in H5. destruct H5 as (em & ? & ?).
    exists em. split; auto. econstructor; eauto.
  - intros (em & H1 & H2). inversion H1; subst. econstructor; eauto. apply IH. eauto.
Qed.

(** The node found under a name in a prefix. *)
Lemma find_node_in : forall g n x, find_node g n = Some x -> In x g /\ n_name x = n.
Proof.
  unfold find_node. intros g n x H. apply find_some in H. destruct H as [? E].
  apply String.eqb_eq in E. auto.
Qed.

Lemma nodup_name_in : forall g x y, NoDup (map n_name g) -> In x g -> In y g ->
  n_name x = n_name y -> x = y.
Proof.
  induction g; simpl; intros x y ND Hx Hy E; [tauto|].
  inversion ND; subst. destruct Hx as [<-|Hx], Hy as [<-|Hy]; auto.
  - exfalso. apply H1. rewrite E. now apply in_map.
  - exfalso. apply H1. rewrite <- E. now apply in_map.
Qed.

(** Storage operands of an evaluated prefix stay in the prefix. *)
Lemma storage_operand_prefix : forall attr g pre e x y,
  NoDup (map n_name g) -> (exists post, g = pre ++ post) ->
  eval_graph A input attr sem [] pre e ->
  In x (map n_name pre) -> storage_operand g x = Some (Some y) ->
  In y (map n_name pre) /\ exists mx my, node_meta g x = Some mx /\ node_meta g y = Some my /\
    m_storage my = m_storage mx.
Proof.
  intros attr g pre e x y ND [post Eg] He Hx Hs. unfold storage_operand in Hs.
  destruct (find_node g x) as [nx|] eqn:Ef; simpl in Hs; [|discriminate].
  destruct (n_meta nx) as [mx|] eqn:Em; simpl in Hs; [|discriminate].
  inversion Hs as [Hs']; clear Hs.
  destruct (find_node_in _ _ _ Ef) as [Hin Hname].
  assert (Hpre : In nx pre).
  { apply in_map_iff in Hx. destruct Hx as (z & Hz & Hzin).
    assert (z = nx); [|now subst]. eapply nodup_name_in; eauto; [|congruence].
    rewrite Eg. apply in_or_app. now left. }
  apply in_split in Hpre. destruct Hpre as (p1 & p2 & Ep). rewrite Ep in He.
  apply eval_app in He. destruct He as (em & H1 & H2). inversion H2 as [|? ? vx ? ? Hnode Hrest]; subst.
  destruct Hnode as (args & kw & Ha & Hk & _).
  apply first_some_in in Hs'. destruct Hs' as (a & Hina & Hsa).
  assert (Hev : exists r, eval_arg A em a = Some r).
  { apply in_app_or in Hina. destruct Hina as [Hina|Hina].
    - eapply mapM_in; eauto.
    - apply in_map_iff in Hina. destruct Hina as ([k a'] & Ea & Hina). simpl in Ea. subst a'.
      unfold eval_kwargs in Hk.
      destruct (mapM_in _ _ _ _ _ _ Hk Hina) as [q Hq]. simpl in Hq.
      destruct (eval_arg A em a); simpl in Hq; [eauto|discriminate]. }
  destruct Hev as [r Hev].
  destruct (same_storage_bound _ _ _ _ _ _ Hev Hsa) as (Hb & m & Hm & Est).
  split.
  - destruct (lookup_bound_in _ _ _ _ _ H1 Hb) as [Hc|Hc]; [now destruct Hc|].
    rewrite map_app. apply in_or_app. now left.
  - exists mx, m. repeat split; auto. unfold node_meta.
    now rewrite Ef.
Qed.

Lemma base_of_prefix : forall attr g pre e fuel x b,
  NoDup (map n_name g) -> (exists post, g = pre ++ post) ->
  eval_graph A input attr sem [] pre e ->
  In x (map n_name pre) -> base_of fuel g x = Some b ->
  In b (map n_name pre) /\ (forall mx, node_meta g x = Some mx ->
     exists mb, node_meta g b = Some mb /\ m_storage mb = m_storage mx).
Proof.
  intros attr g pre e fuel. induction fuel; intros x b ND Hg He Hx Hb; [discriminate|].
  cbn [base_of] in Hb.
  destruct (storage_operand g x) as [[y|]|] eqn:Es; simpl in Hb; try discriminate.
  - destruct (storage_operand_prefix _ _ _ _ _ _ ND Hg He Hx Es) as (Hy & mx & my & Ex & Ey & Est).
    destruct (IHfuel _ _ ND Hg He Hy Hb) as (Hb1 & Hb2). split; auto.
    intros mx' Hmx'. rewrite Ex in Hmx'. inversion Hmx'; subst.
    destruct (Hb2 _ Ey) as (mb & ? & ?). exists mb. split; congruence.
  - inversion Hb; subst. split; auto. intros mx Hmx. eauto.
Qed.

(** ** Related environments *)
Definition env_le (e e' : env) : Prop :=
  forall n v, lookup A e n = Some v -> exists v', lookup A e' n = Some v' /\ val_eq A v v'.

Lemma val_eq_refl : forall v, val_eq A v v.
Proof. destruct v; simpl; auto. Qed.

Lemma eval_arg_rel : forall e e' a r, env_le e e' -> eval_arg A e a = Some r ->
  exists r', eval_arg A e' a = Some r' /\ arg_eq A r r'.
Proof.
  intros e e' a. induction a using arg_ind'; intros r Hr He.
  - cbn [eval_arg] in *. destruct (lookup A e n) eqn:E; simpl in He; [|discriminate].
    inversion He; subst. destruct (Hr _ _ E) as (v' & E' & Hv). rewrite E'.
    eexists. split; [reflexivity|]. now constructor.
  - simpl in *. inversion He; subst. eexists; split; [reflexivity|constructor].
  - simpl in *. inversion He; subst. eexists; split; [reflexivity|constructor].
  - simpl in *. inversion He; subst. eexists; split; [reflexivity|constructor].
  - rewrite eval_arg_list in *.
    destruct (mapM (eval_arg A e) l) as [vs|] eqn:Ev; simpl in He; [|discriminate].
    inversion He; subst; clear He.
    assert (HH : exists vs', mapM (eval_arg A e') l = Some vs' /\ Forall2 (arg_eq A) vs vs').
    { revert vs Ev. induction H as [|x l Hx Hl IH]; intros vs Ev; simpl in *.
      - inversion Ev; subst. eexists; split; [reflexivity|constructor].
      - destruct (eval_arg A e x) eqn:Ex; simpl in Ev; [|discriminate].
        destruct (mapM (eval_arg A e) l) eqn:El; simpl in Ev; [|discriminate].
        inversion Ev; subst. destruct (Hx _ Hr eq_refl) as (r' & -> & Hr').
        destruct (IH _ eq_refl) as (vs' & -> & Hvs'). simpl.
        eexists; split; [reflexivity|constructor; auto]. }
    destruct HH as (vs' & -> & Hvs'). simpl. eexists; split; [reflexivity|now constructor].
Qed.

Lemma eval_args_rel : forall e e' l r, env_le e e' -> eval_args A e l = Some r ->
  exists r', eval_args A e' l = Some r' /\ Forall2 (arg_eq A) r r'.
Proof.
  unfold eval_args. induction l as [|a l IH]; simpl; intros r Hr He.
  - inversion He; subst. eexists; split; [reflexivity|constructor].
  - destruct (eval_arg A e a) eqn:Ex; simpl in He; [|discriminate].
    destruct (mapM (eval_arg A e) l) eqn:El; simpl in He; [|discriminate].
    inversion He; subst. destruct (eval_arg_rel _ _ _ _ Hr Ex) as (r' & -> & Hr').
    destruct (IH _ Hr eq_refl) as (vs' & -> & Hvs'). simpl.
    eexists; split; [reflexivity|constructor; auto].
Qed.

Lemma eval_kwargs_rel : forall e e' l r, env_le e e' -> eval_kwargs A e l = Some r ->
  exists r', eval_kwargs A e' l = Some r' /\
    Forall2 (fun p q => fst p = fst q /\ arg_eq A (snd p) (snd q)) r r'.
Proof.
  unfold eval_kwargs. induction l as [|[k a] l IH]; simpl; intros r Hr He.
  - inversion He; subst. eexists; split; [reflexivity|constructor].
  - destruct (eval_arg A e a) eqn:Ex; simpl in He; [|discriminate].
    destruct (mapM _ l) eqn:El in He; simpl in He; [|discriminate].
    inversion He; subst. destruct (eval_arg_rel _ _ _ _ Hr Ex) as (r' & -> & Hr').
    destruct (IH _ Hr El) as (vs' & -> & Hvs'). simpl.
    eexists; split; [reflexivity|constructor; auto].
Qed.

Lemma index_sem_rel : forall self ix r self' ix',
  index_sem A self ix r -> arg_eq A self self' -> arg_eq A ix ix' ->
  exists r', index_sem A self' ix' r' /\ val_eq A r r'.
Proof.
  intros self ix r self' ix' H Hs Hx.
  destruct self as [v| | | |]; try contradiction. destruct v as [t| |]; try contradiction.
  inversion Hs as [? w Hw| | | |]; subst. destruct w as [t'| |]; try contradiction.
  destruct ix as [| | | |l]; try contradiction.
  inversion Hx as [| | | |? m Hm]; subst.
  destruct l as [|[[|sz f|]| | | |] rest]; try contradiction.
  - inversion Hm; subst. simpl in *. subst. eexists; split; [reflexivity|]. simpl. auto.
  - simpl in H. destruct H as (fs & F & Len & t1 & -> & Hsz & Hel).
    inversion Hm as [|? b ? m' Hb Hm']; subst. inversion Hb as [? w Hw'| | | |]; subst.
    destruct w as [|sz' f'|]; try contradiction. simpl in Hw'. destruct Hw' as [<- Hf].
    destruct Hw as [Hsh Helem].
    assert (HH : exists fs', Forall2 (fun a f => a = RVal A (VI A (t_shape _ t1) f)) m' fs' /\
              length fs' = length fs /\
              forall idx, in_bounds idx (t_shape _ t1) -> map (fun h => h idx) fs' = map (fun h => h idx) fs).
    { clear -F Hm'. revert m' Hm'. induction F as [|a g rest fs Ha F IH]; intros m' Hm'.
      - inversion Hm'; subst. exists []. repeat split; auto. 
      - inversion Hm' as [|? b ? m'' Hb Hm'']; subst. inversion Hb as [? w Hw'| | | |]; subst.
        destruct w as [|sz' f'|]; try contradiction. simpl in Hw'. destruct Hw' as [<- Hf].
        destruct (IH _ Hm'') as (fs' & F' & L & E). exists (f' :: fs'). repeat split.
        + constructor; auto.
        + simpl. auto.
        + intros idx Hi. simpl. rewrite E by auto. now rewrite Hf. }
    destruct HH as (fs' & F' & L & E).
    exists (VT A t1). split; [|apply val_eq_refl]. simpl.
    exists fs'. split; auto. split; [rewrite <- Hsh; simpl in *; congruence|].
    exists t1. repeat split; auto.
    + specialize (Hel _ H). destruct Hel as [Hb' _]. simpl in *.
      rewrite E, <- Hf, <- Hsh by auto. auto.
    + specialize (Hel _ H). destruct Hel as [Hb' He']. simpl in *.
      rewrite E, <- Hf by auto. rewrite He'. auto.
Qed.

Lemma get_arg_eval : forall (e : env) n i name d dv args kw r,
  eval_args A e (n_args n) = Some args -> eval_kwargs A e (n_kwargs n) = Some kw ->
  schema_arg A args kw i name dv = Some r ->
  (match d, dv with Some x, Some y => eval_arg A e x = Some y | None, None => True | _, _ => False end) ->
  exists a, get_arg n i name d = Some a /\ eval_arg A e a = Some r.
Proof.
  unfold eval_args, eval_kwargs, schema_arg, get_arg, kwarg, kw_get.
  intros e n i name d dv args kw r Ha Hk Hs Hd.
  assert (L : length args = length (n_args n)) by (eapply mapM_length; eauto).
  apply mapM_Forall2 in Ha, Hk.
  destruct (nth_error args i) as [x|] eqn:En.
  - inversion Hs; subst.
    assert ((i < length args)%nat) by (apply nth_error_Some; congruence).
    rewrite L in H. apply Nat.ltb_lt in H. rewrite H. apply Nat.ltb_lt in H.
    destruct (nth_error (n_args n) i) as [a|] eqn:Ea; [|apply nth_error_None in Ea; lia].
    exists a. split; auto. eapply (nth_error_Forall2 _ _ _ _ _ Ha); eauto.
  - apply nth_error_None in En. rewrite L in En. apply Nat.ltb_ge in En. rewrite En.
    assert (HF : match find (fun p => String.eqb (fst p) name) (n_kwargs n),
                       find (fun p => String.eqb (fst p) name) kw with
                 | Some p, Some q => eval_arg A e (snd p) = Some (snd q)
                 | None, None => True | _, _ => False end).
    { clear -Hk. induction Hk as [|p q l l' Hp Hk IH]; simpl; auto.
      destruct (eval_arg A e (snd p)) eqn:E; simpl in Hp; [|discriminate].
      inversion Hp; subst. simpl. destruct (String.eqb (fst p) name); auto. }
    destruct (find _ (n_kwargs n)) as [p|], (find _ kw) as [q|]; simpl in *; try contradiction.
    + inversion Hs; subst. eauto.
    + subst dv. destruct d; [|contradiction]. eauto.
Qed.

Lemma arg_ints_eval : forall (e : env) a l r, arg_ints a = Some l -> eval_arg A e a = Some r ->
  ints_of A r = Some l.
Proof.
  intros e a l r H He. destruct a; simpl in H; try discriminate.
  rewrite eval_arg_list in He.
  destruct (mapM (eval_arg A e) l0) as [vs|] eqn:E; simpl in He; [|discriminate].
  inversion He; subst. simpl. apply mapM_Forall2 in H. apply mapM_Forall2. apply mapM_Forall2 in E.
  clear He. revert vs E. induction H as [|x z l1 l2 Hx H IH]; intros vs E;
    inversion E as [|? w ? ws Hw Hws]; subst; constructor; auto.
  destruct x; try discriminate. simpl in *. inversion Hx; subst. inversion Hw; subst. auto.
Qed.

(** ** Constants of one segment *)
Lemma find_buf : forall (bufs : list (string * itensor)) a t,
  NoDup (map fst bufs) -> In (a, t) bufs ->
  find (fun b => String.eqb (fst b) a) bufs = Some (a, t).
Proof.
  induction bufs as [|[b u] r IH]; simpl; intros a t ND H0; [tauto|].
  inversion ND; subst. destruct H0 as [E|H].
  - inversion E; subst. now rewrite String.eqb_refl.
  - destruct (String.eqb b a) eqn:E.
    + apply String.eqb_eq in E. subst. exfalso. apply H2.
      change a with (fst (a, t)). now apply in_map.
    + auto.
Qed.

Lemma env_le_cons_new : forall e e' n v, lookup A e n = None -> env_le e e' ->
  env_le e ((n, v) :: e').
Proof.
  intros e e' n v Hn H m w Hw. simpl. destruct (String.eqb n m) eqn:E.
  - apply String.eqb_eq in E. subst. congruence.
  - auto.
Qed.

Lemma run_consts : forall attr bufs consts ts e e',
  NoDup (map fst bufs) -> Forall2 (const_ok bufs) consts ts ->
  NoDup (map n_name consts) -> (forall c, In c consts -> lookup A e (n_name c) = None) ->
  env_le e e' ->
  exists e1, eval_graph A input (attrs_after bufs attr) sem e' consts e1 /\ env_le e e1 /\
    Forall2 (fun c (t : itensor) => lookup A e1 (n_name c) = Some (VI A (fst t) (snd t))) consts ts.
Proof.
  intros attr bufs consts ts e e' NDb F. revert e'.
  induction F as [|c t cs ts Hc F IH]; intros e' ND Hfresh Hle.
  - exists e'. split; [constructor|]. split; auto.
  - inversion ND; subst. destruct Hc as (a & Hop & Hargs & Hkw & Hin).
    destruct (IH ((n_name c, VI A (fst t) (snd t)) :: e')) as (e1 & Hr1 & Hr2 & Hr3); auto.
    + intros x Hx. apply Hfresh. now right.
    + apply env_le_cons_new; auto. apply Hfresh. now left.
    + exists e1. repeat split; auto.
      * econstructor; [|exact Hr1]. exists [], []. rewrite Hop, Hargs, Hkw.
        repeat split; auto. unfold attrs_after. rewrite (find_buf _ _ _ NDb Hin).
        destruct t; reflexivity.
      * constructor; auto. rewrite (lookup_stable _ _ _ _ _ Hr1) by auto.
        simpl. now rewrite String.eqb_refl.
Qed.

Lemma in_bounds_nths : forall idx sh, in_bounds idx sh ->
  map (fun d => nth d idx 0) (seq 0 (length sh)) = idx.
Proof.
  intros idx sh H. rewrite <- (in_bounds_length _ _ H). clear.
  induction idx; simpl; auto. f_equal. rewrite <- seq_shift, map_map. auto.
Qed.

(** Evaluating the argument list of the replacement node. *)
Lemma eval_const_args : forall (e1 : env) consts (ts : list itensor),
  Forall2 (fun c (t : itensor) => lookup A e1 (n_name c) = Some (VI A (fst t) (snd t))) consts ts ->
  eval_arg A e1 (AList (map (fun c => ANode (n_name c)) consts)) =
  Some (RList A (map (fun t : itensor => RVal A (VI A (fst t) (snd t))) ts)).
Proof.
  intros. rewrite eval_arg_list. 
  assert (mapM (eval_arg A e1) (map (fun c => ANode (n_name c)) consts) =
          Some (map (fun t : itensor => RVal A (VI A (fst t) (snd t))) ts)) as ->; auto.
  induction H; simpl; auto. rewrite H. simpl. rewrite IHForall2. reflexivity.
Qed.

Variable attr : string -> option value.

Theorem simulation : forall g attrs s g' e,
  NoDup (map n_name g) ->
  (forall a, attr a <> None -> In a attrs) ->
  rewrite_as_strided g attrs = Some (s, g') ->
  eval_graph A input attr sem [] g e ->
  meta_describes A g e -> no_reinterpretation g -> no_scalar_storage g ->
  sem_extensional A sem ->
  exists e', eval_graph A input (attrs_after (s_bufs s) attr) sem [] g' e' /\
    env_le e e'.
Proof.
  intros g attrs s g' ef ND Hattr Hrw He Hmeta Hdt Hsc Hsem.
  unfold rewrite_as_strided in Hrw.
  apply rewrite_rev_spec with (attrs := attrs) in Hrw.
  2: { split; simpl; auto.
       - rewrite app_nil_r, map_rev. apply Permutation_rev.
       - constructor.
       - intros x [].
       - apply incl_refl. }
  destruct Hrw as (segs & F & Eg' & I & _). rewrite rev_involutive in F.
  rewrite app_nil_r in Eg'.
  set (bufs := s_bufs s) in *.
  assert (NDg' : NoDup (map n_name g')) by (eapply Permutation_NoDup; [apply I|apply I]).
  assert (NDb : NoDup (map fst bufs)) by apply I.
  assert (main : forall rest segs2 pre segs1 e e',
    g = pre ++ rest -> segs = segs1 ++ segs2 -> Forall2 (seg_ok g bufs) pre segs1 ->
    Forall2 (seg_ok g bufs) rest segs2 ->
    eval_graph A input attr sem [] pre e ->
    eval_graph A input attr sem e rest ef ->
    env_le e e' ->
    exists e1, eval_graph A input (attrs_after bufs attr) sem e' (concat segs2) e1 /\ env_le ef e1).
  2: { rewrite Eg'. apply (main g segs [] [] [] []); auto; try constructor. intros n v Hn. discriminate. }
  induction rest as [|n rest IH]; intros segs2 pre segs1 e e' Eg Es F1 F2 He1 He2 Hle.
  - inversion F2; subst. inversion He2; subst. exists e'. split; auto. constructor.
  - inversion F2 as [|? seg ? segs2' Hseg F2']; subst segs2. clear F2. subst.
    inversion He2 as [|? ? v ? ? Hv He2']; subst.
    assert (Hpre1 : exists post, pre ++ n :: rest = pre ++ post) by eauto.
    (* it suffices to run the segment and bind n_name n to a related value *)
    assert (step : exists e1 v', eval_graph A input (attrs_after bufs attr) sem e' seg ((n_name n, v') :: e1)
       /\ env_le e e1 /\ val_eq A v v').
    { destruct Hseg as [[Hop ->]|[Hop Hss]].
      - (* unchanged node *)
        destruct Hv as (args & kw & Ha & Hk & Hv).
        destruct (eval_args_rel _ _ _ _ Hle Ha) as (args' & Ha' & Ra).
        destruct (eval_kwargs_rel _ _ _ _ Hle Hk) as (kw' & Hk' & Rk).
        assert (Hv' : exists v', val_eq A v v' /\
          eval_node A input (attrs_after bufs attr) sem e' n v').
        { destruct (n_op n) eqn:Eop.
          - exists v. split; [apply val_eq_refl|]. exists args', kw'. rewrite Eop. auto.
          - exists v. split; [apply val_eq_refl|]. exists args', kw'. rewrite Eop.
            repeat split; auto. unfold attrs_after.
            destruct (find (fun b => String.eqb (fst b) a) bufs) as [[b t]|] eqn:Ef; auto.
            exfalso. apply find_some in Ef. destruct Ef as [Hin Eb].
            apply String.eqb_eq in Eb. simpl in Eb. subst b.
            apply (i_bfresh _ _ _ I a).
            + change a with (fst (a, t)). now apply in_map.
            + apply Hattr. congruence.
          - congruence.
          - destruct Hv as (self & ix & -> & Hix).
            inversion Ra as [|? s' ? l Hs' Hl]; subst.
            inversion Hl as [|? i' ? l' Hi' Hl']; subst. inversion Hl'; subst.
            destruct (index_sem_rel _ _ _ _ _ Hix Hs' Hi') as (v' & Hx' & Hvv).
            exists v'. split; auto. exists [s'; i'], kw'. rewrite Eop. repeat split; eauto.
          - destruct (Hsem _ _ _ _ _ _ Hv Ra Rk) as (v' & Hs' & Hvv).
            exists v'. split; auto. exists args', kw'. rewrite Eop. auto. }
        destruct Hv' as (v' & Hvv & Hev). exists e', v'. repeat split; auto.
        econstructor; [exact Hev|constructor].
      - (* rewritten node *)
        destruct Hss as (src & sizea & size & stridea & stride & offa & sm & off & base & bm &
          bshape & bstride & boff & coords & consts & idxn & G0 & G1 & A1 & G2 & A2 & G3 & Msm &
          Hoff & Hbase & Mbm & Mbs & Mbst & Mbo & Hidx & Fc & Nn & Nop & Nkw & Nargs & ->).
        (* names of the constants are new *)
        assert (NDc : NoDup (map n_name consts)).
        { rewrite !concat_app in NDg'. simpl in NDg'. rewrite !map_app in NDg'.
          apply NoDup_app_inv in NDg'. destruct NDg' as (_ & NDg' & _).
          apply NoDup_app_inv in NDg'. destruct NDg' as (NDg' & _ & _).
          now apply NoDup_app_inv in NDg'. }
        assert (Hnamein : forall l ss x, Forall2 (seg_ok (pre ++ n :: rest) bufs) l ss ->
                   In x (map n_name l) -> In x (map n_name (concat ss))).
        { clear. intros l ss x F. induction F as [|y sg l ss Hy F IHF]; simpl; auto.
          rewrite map_app. intros [<-|Hin]; apply in_or_app; auto. left.
          destruct Hy as [[_ ->]|(_ & Hss)]; [now left|].
          unfold strided_seg in Hss.
          destruct Hss as (src & sizea & size & stridea & stride & offa & sm & off & base & bm &
          bshape & bstride & boff & coords & consts & idxn & G0 & G1 & A1 & G2 & A2 & G3 & Msm &
          Hoff & Hbase & Mbm & Mbs & Mbst & Mbo & Hidx & Fc & Nn & Nop & Nkw & Nargs & ->).
          rewrite map_app. apply in_or_app. right. simpl. auto. }
        assert (Hfresh : forall c, In c consts -> lookup A e (n_name c) = None).
        { intros c Hc. destruct (lookup A e (n_name c)) eqn:El; auto. exfalso.
          assert (Hb : bound e (n_name c)) by (unfold bound; congruence).
          destruct (lookup_bound_in _ _ _ _ _ He1 Hb) as [Hb'|Hb']; [now destruct Hb'|].
          apply (Hnamein _ _ _ F1) in Hb'.
          rewrite concat_app, map_app in NDg'. simpl in NDg'.
          rewrite !map_app in NDg'.
          clear -NDg' Hb' Hc. 
          induction (map n_name (concat segs1)) as [|x l IHl]; [destruct Hb'|].
          simpl in NDg'. inversion NDg'; subst. destruct Hb' as [->|Hb']; auto.
          apply H1. apply in_or_app. right. apply in_or_app. left. apply in_or_app. left.
          now apply in_map. }
        destruct (run_consts attr bufs consts _ e e' NDb Fc NDc Hfresh Hle) as (e1 & Hrun & Hle1 & Fl).
        (* the original value *)
        destruct Hv as (args & kw & Ha & Hk & Hv). rewrite Hop in Hv.
        destruct Hv as (srcv & sizev & stridev & offv & S0 & S1 & S2 & S3 & Sem).
        destruct (get_arg_eval e n 0 "self" None None _ _ _ Ha Hk S0 Logic.I) as (a0 & G0' & V0).
        destruct (get_arg_eval e n 1 "size" None None _ _ _ Ha Hk S1 Logic.I) as (a1 & G1' & V1).
        destruct (get_arg_eval e n 2 "stride" None None _ _ _ Ha Hk S2 Logic.I) as (a2 & G2' & V2).
        destruct (get_arg_eval e n 3 "storage_offset" (Some ANone) (Some (RNone A)) _ _ _ Ha Hk S3 eq_refl)
          as (a3 & G3' & V3).
        rewrite G0 in G0'. inversion G0'; subst a0. rewrite G1 in G1'. inversion G1'; subst a1.
        rewrite G2 in G2'. inversion G2'; subst a2. rewrite G3 in G3'. inversion G3'; subst a3.
        clear G0' G1' G2' G3'.
        pose proof (arg_ints_eval _ _ _ _ A1 V1) as Isz.
        pose proof (arg_ints_eval _ _ _ _ A2 V2) as Ist.
        cbn [eval_arg] in V0. destruct (lookup A e src) as [sv|] eqn:Lsrc; [|discriminate].
        inversion V0; subst srcv. unfold as_strided_sem in Sem.
        destruct sv as [st| |]; try discriminate. rewrite Isz, Ist in Sem.
        destruct (Nat.eqb (length size) (length stride)) eqn:Elen; [|discriminate].
        (* names and final environment *)
        assert (Hsrcin : In src (map n_name pre)).
        { assert (Hb : bound e src) by (unfold bound; congruence).
          destruct (lookup_bound_in _ _ _ _ _ He1 Hb) as [Hb'|Hb']; auto. now destruct Hb'. }
        destruct (base_of_prefix _ _ _ _ _ _ _ ND Hpre1 He1 Hsrcin Hbase) as (Hbin & Hst).
        assert (Hstab : forall x, In x (map n_name pre) -> lookup A ef x = lookup A e x).
        { intros x Hx. apply (lookup_stable _ _ _ _ _ He2).
          rewrite map_app in ND. clear -ND Hx.
          induction (map n_name pre) as [|y l IHl]; [destruct Hx|].
          simpl in ND. inversion ND; subst. destruct Hx as [->|Hx]; auto.
          intros Hc. apply H1. apply in_or_app. now right. }
        destruct Hmeta as [Hm1 Hm2].
        destruct (Hm1 _ _ Msm) as (ts & Ls & Ss & _ & _ & Hso).
        rewrite Hstab, Lsrc in Ls by auto. inversion Ls; subst ts.
        destruct (Hm1 _ _ Mbm) as (tb & Lb & Sb & Hbs & Hbst & Hbo).
        specialize (Hbs _ Mbs). specialize (Hbst _ Mbst). specialize (Hbo _ Mbo).
        destruct (Hst _ Msm) as (mb & Mb' & Est). rewrite Mbm in Mb'. inversion Mb'; subst mb.
        assert (Hrd : forall k, t_rd A tb k = t_rd A st k).
        { eapply (Hm2 base bm tb src sm st); auto.
          - rewrite Hstab by auto. auto.
          - eapply Hdt; eauto. }
        rewrite Hstab in Lb by auto.
        assert (Hoffv : v = VT A {| t_shape := size; elem := fun idx => t_rd A st (address off stride idx);
                            t_rd := t_rd A st; t_stride := stride; t_off := off |}).
        { destruct offa; simpl in Hoff; try discriminate.
          - cbn [eval_arg] in V3. inversion V3; subst offv. inversion Hoff; subst. now inversion Sem.
          - cbn [eval_arg] in V3. inversion V3; subst offv. rewrite (Hso _ Hoff) in Sem. now inversion Sem. }
        clear Sem. subst v.
        pose proof (indices_sound _ _ _ _ _ _ _ Hidx) as Hsound.
        (* evaluate the replacement *)
        destruct (Hle1 _ _ Lb) as (vb' & Lb' & Hvb). destruct vb' as [tb'| |]; try contradiction.
        destruct Hvb as [Hsh' Hel'].
        assert (Hrank : bshape <> []).
        { intros ->. apply (Hsc _ _ Mbm). unfold meta_ints in Mbs.
          apply mapM_length in Mbs. now destruct (m_shape bm). }
        exists e1, (VT A {| t_shape := size; elem := fun idx => elem A tb' (coords idx);
                          t_rd := t_rd A tb'; t_stride := []; t_off := 0 |}).
        split; [|split; auto].
        + apply eval_app. exists e1. split; auto. rewrite <- Nn.
          econstructor; [|constructor].
          exists [RVal A (VT A tb'); RList A (map (fun t : itensor => RVal A (VI A (fst t) (snd t)))
             (map (fun d => (size, fun i => nth d (coords i) 0)) (seq 0 (length bshape))))], [].
          rewrite Nargs, Nkw, Nop. repeat split.
          * unfold eval_args. cbn [mapM]. 
            rewrite (eval_const_args _ _ _ Fl). cbn [eval_arg]. rewrite Lb'. reflexivity.
          * eexists _, _. split; [reflexivity|].
            rewrite map_map. cbn [fst snd].
            destruct bshape as [|b0 br]; [congruence|]. cbn [length seq map index_sem].
            exists (map (fun d i => nth d (coords i) 0) (seq 1 (length br))).
            split; [|split].
            -- clear. induction (seq 1 (length br)); simpl; constructor; auto.
            -- simpl. rewrite map_length, seq_length, <- Hsh', Hbs. reflexivity.
            -- eexists. split; [reflexivity|]. split; [reflexivity|].
               intros idx Hi. destruct (Hsound idx Hi) as [Hb1 Hb2].
               assert (Ec : map (fun h => h idx) ((fun i => nth 0 (coords i) 0) ::
                      map (fun d i => nth d (coords i) 0) (seq 1 (length br))) = coords idx).
               { simpl. rewrite map_map.
                 transitivity (map (fun d => nth d (coords idx) 0) (seq 0 (length (b0 :: br)))); auto.
                 now apply in_bounds_nths. }
               split.
               ++ refine (eq_ind_r (fun l => in_bounds l _) _ Ec). now rewrite <- Hsh', Hbs.
               ++ refine (eq_ind_r (fun l => _ = elem A tb' l) _ Ec). reflexivity.
        + simpl. split; auto. intros idx Hi. destruct (Hsound idx Hi) as [Hb1 Hb2].
          rewrite <- Hel' by now rewrite Hbs.
          destruct Sb as [_ Sb]. rewrite Sb by now rewrite Hbs.
          rewrite Hrd, Hbo, Hbst, Hb2. reflexivity. }
    destruct step as (e1 & v' & Hrun & Hle1 & Hvv).
    destruct (IH segs2' (pre ++ [n]) (segs1 ++ [seg]) ((n_name n, v) :: e) ((n_name n, v') :: e1))
      as (e2 & Hrun2 & Hle2); auto.
    + now rewrite <- app_assoc.
    + now rewrite <- app_assoc.
    + apply Forall2_app; auto.
    + apply eval_app. exists e. split; auto. econstructor; [exact Hv|constructor].
    + intros m w Hm. simpl in *. destruct (String.eqb (n_name n) m) eqn:E; auto.
      inversion Hm; subst. eauto.
    + exists e2. split; auto. simpl. apply eval_app. eauto.
Qed.

End Sim.
