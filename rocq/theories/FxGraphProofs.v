(** Proofs for the FX importer: simulation of FX interpretation by the emitted block. *)
From Coq Require Import String ZArith Bool List Lia.
From Verif Require Import Prelude FxGraphModel FxGraphSpec FxGraphSsa.
Import ListNotations.
Open Scope Z_scope.

(** ** Table lemmas *)
Lemma keyb_spec : forall a b, keyb a b = true <-> a = b.
Proof.
  intros [a i] [b j]. unfold keyb. simpl. rewrite andb_true_iff, String.eqb_eq, Nat.eqb_eq.
  split; [intros [-> ->]; auto | intros H; inversion H; auto].
Qed.
Lemma keyb_refl : forall a, keyb a a = true.
Proof. intros; now apply keyb_spec. Qed.

Lemma vget_cons : forall l k b k',
  vget ((k, b) :: l) k' = if keyb k k' then Some b else vget l k'.
Proof. reflexivity. Qed.

Lemma vget_vset : forall l k b k',
  vget (vset l k b) k' =
  if keyb k k' then match vget l k with Some _ => Some b | None => None end else vget l k'.
Proof.
  induction l as [|[k0 b0] l IH]; intros k b k'; simpl.
  - now destruct (keyb k k').
  - destruct (keyb k0 k) eqn:E.
    + simpl. apply keyb_spec in E. subst. destruct (keyb k k'); auto.
    + simpl. destruct (keyb k0 k') eqn:E2.
      * apply keyb_spec in E2. subst k0. destruct (keyb k k') eqn:E3; auto.
        apply keyb_spec in E3. subst. rewrite keyb_refl in E. discriminate.
      * apply IH.
Qed.

Lemma sget_cons : forall A (l : list (string * A)) k b k',
  sget ((k, b) :: l) k' = if String.eqb k k' then Some b else sget l k'.
Proof. reflexivity. Qed.

Lemma memb_In : forall n l, memb n l = true <-> In n l.
Proof.
  intros. unfold memb. rewrite existsb_exists. split.
  - intros [x [H E]]. apply String.eqb_eq in E. now subst.
  - intros H. exists n. split; auto. apply String.eqb_refl.
Qed.

Lemma mkvals_ids : forall tys n, map vid (mkvals n tys) = seq n (length tys).
Proof. induction tys; simpl; intros; auto. f_equal. apply IHtys. Qed.
Lemma mkvals_len : forall tys n, length (mkvals n tys) = length tys.
Proof. induction tys; simpl; auto. Qed.
Lemma mkvals_tys : forall tys n, map vty (mkvals n tys) = tys.
Proof. induction tys; simpl; intros; auto. f_equal. apply IHtys. Qed.

Lemma foldM_app : forall A S (f : S -> A -> option S) l r s,
  foldM f (l ++ r) s = do s' <- foldM f l s; foldM f r s'.
Proof.
  induction l; simpl; intros; auto. destruct (f s a); simpl; auto.
Qed.

Section Env.
Variable T : Type.
Lemma eget_combine_fresh : forall ids (ys : list (rv T)) e i,
  ~ In i ids -> eget T (combine ids ys ++ e) i = eget T e i.
Proof.
  induction ids; destruct ys; simpl; intros; auto.
  destruct (Nat.eqb_spec a i); [subst; tauto|]. apply IHids. tauto.
Qed.
Lemma eget_combine_in : forall ids (ys : list (rv T)) e,
  NoDup ids -> length ys = length ids ->
  Forall2 (fun i y => eget T (combine ids ys ++ e) i = Some y) ids ys.
Proof.
  induction ids; destruct ys; simpl; intros e Hnd Hl; try discriminate; constructor.
  - now rewrite Nat.eqb_refl.
  - inversion Hnd as [|x l Hx Hnd']; subst.
    eapply Forall2_imp_in; [apply (IHids ys e Hnd' ltac:(lia))|].
    intros i y Hi _ H. destruct (Nat.eqb_spec a i); [subst; contradiction|auto].
Qed.
Lemma eget_app : forall l e i, eget T (l ++ e) i =
  match eget T l i with Some x => Some x | None => eget T e i end.
Proof.
  induction l as [|[j v] l IH]; simpl; intros; auto. destruct (Nat.eqb j i); auto.
Qed.
Lemma eget_combine_dom : forall ids (ys : list (rv T)) i x,
  eget T (combine ids ys) i = Some x -> In i ids.
Proof.
  induction ids; destruct ys; simpl; intros i x H; try discriminate.
  destruct (Nat.eqb_spec a i); eauto.
Qed.
End Env.

Definition fvget {T} (e : fenv T) (k : string * nat) : option (rv T) :=
  match sget e (fst k) with
  | Some (FOne v) => if Nat.eqb (snd k) 0 then Some v else None
  | Some (FMany l) => match nth_error l (snd k) with Some o => o | None => None end
  | None => None
  end.

Section Sim.
Variable T : Type.
Variable W : world T.
Variable registry : string -> option schema.
Variable g : graph.
Variable m0 : mach T.
Variable hooks0 : list (string * hook).
Variable tracked : string -> loc -> Prop.
Variable efin : fenv T.

Hypothesis Hbool : bool_cast_ok T W.
Hypothesis Hscal : scalar_variants_ok T W registry g.
Hypothesis Hcanon : canonicalize_ok T W registry g.
Hypothesis Hdrop : dropped_ok registry g.
Hypothesis Htens : tensor_operands_ok registry g.
Hypothesis Hnames : NoDup (map n_name g).
Hypothesis Hmeta : meta_ok T g efin.
Hypothesis Htrk : forall p l, tracked p l ->
  sget hooks0 p = Some l /\
  (forall q, sget hooks0 q = Some l -> q = p) /\
  (forall f, sget efin p = Some f -> exists x, f = FOne x).
Hypothesis Hmut : forall p t, sget hooks0 p = Some (HOverwrite t) ->
  eget T (m_env T m0) t <> None.

Notation attr_of := (g_attr g).
Notation scal := (g_scalar g).
Notation eg m i := (eget T (m_env T m) i).

Definition ext (m m' : mach T) := forall i x, eg m i = Some x -> eg m' i = Some x.
Lemma ext_refl : forall m, ext m m. Proof. firstorder. Qed.
Lemma ext_trans : forall a b c, ext a b -> ext b c -> ext a c. Proof. firstorder. Qed.

Definition holds (m : mach T) (v : val) (x : rv T) := eg m (vid v) = Some x /\ has_ty T (vty v) x.
Lemma holds_ext : forall m m' v x, ext m m' -> holds m v x -> holds m' v x.
Proof. firstorder. Qed.

Definition bok (e : fenv T) (m : mach T) (k : string * nat) (b : binding) : Prop :=
  match b with
  | BVal v => exists x, fvget e k = Some x /\ holds m v x
  | BLazy l => exists x, fvget e k = Some x /\ lit_val T W l = Some x
  | BNone => sget e (fst k) <> None
  end.

Record sim (e : fenv T) (s : st) (m : mach T) : Prop := {
  sim_run : run T W m0 (s_ops s) = Some m;
  sim_base : ext m0 m;
  sim_fresh : forall i x, eg m i = Some x -> (i < s_next s)%nat;
  sim_vals : forall k b, vget (s_vals s) k = Some b -> bok e m k b;
  sim_unpack : forall r vs, sget (s_unpack s) r = Some vs ->
      exists l, sget e r = Some (FOne (RList l)) /\ Forall2 (holds m) vs l;
  sim_attr : forall n l f, attr_of n = Some (Some l) -> sget e n = Some f ->
      option_map FOne (lit_val T W l) = Some f;
  sim_sub : forall n f, sget e n = Some f -> sget efin n = Some f;
  sim_dom : forall n f, sget e n = Some f -> exists nd, In nd g /\ n_name nd = n;
  sim_many : forall n l, sget e n = Some (FMany l) -> In n (s_multi s);
  sim_multi : forall n f, In n (s_multi s) -> sget e n = Some f -> exists l, f = FMany l;
  sim_hooks : s_hooks s = hooks0;
  sim_trk : forall p l, tracked p l ->
      match vget (s_vals s) (p, 0%nat) with
      | None => mget T (m_mem T m) l = mget T (m_mem T m0) l
      | Some (BVal v) => mget T (m_mem T m) l = eg m (vid v)
      | _ => False
      end;
  sim_frame : forall l, (forall q, sget hooks0 q <> Some l) ->
      mget T (m_mem T m) l = mget T (m_mem T m0) l
}.

Lemma run_snoc : forall ops o m m', run T W m0 ops = Some m -> step T W m o = Some m' ->
  run T W m0 (ops ++ [o]) = Some m'.
Proof.
  unfold run. intros ops o m m' H1 H2. rewrite foldM_app, H1. simpl. now rewrite H2.
Qed.

Lemma bok_ext : forall e m m' k b, ext m m' -> bok e m k b -> bok e m' k b.
Proof.
  intros e m m' k [v|l|] Hx Hb; simpl in *; auto.
  destruct Hb as [x [H1 H2]]. exists x. split; auto. eapply holds_ext; eauto.
Qed.

(** Emission of an operation that leaves memory alone. *)
Lemma emit_sim : forall e s m k args tys xs ys,
  sim e s m -> Forall2 (fun v x => eg m (vid v) = Some x) args xs ->
  kind_sem T W k (map vid args) xs (m_mem T m) = Some (ys, m_mem T m) ->
  length ys = length tys ->
  exists m', sim e (snd (emit k args tys s)) m' /\ ext m m' /\
    Forall2 (fun v y => eg m' (vid v) = Some y) (fst (emit k args tys s)) ys.
Proof.
  intros e s m k args tys xs ys Hs Ha Hk Hl.
  set (ids := map vid (mkvals (s_next s) tys)).
  assert (Hids : ids = seq (s_next s) (length tys)) by apply mkvals_ids.
  assert (Hstep : step T W m (Op k (map vid args) ids) =
                  Some (M (combine ids ys ++ m_env T m) (m_mem T m))).
  { unfold step. simpl.
    assert (mapM (eget T (m_env T m)) (map vid args) = Some xs) as ->.
    { apply mapM_Forall2. clear - Ha. induction Ha; simpl; constructor; auto. }
    simpl. rewrite Hk. simpl.
    assert (Nat.eqb (length ys) (length ids) = true) as ->.
    { apply Nat.eqb_eq. rewrite Hids, seq_length. auto. }
    reflexivity. }
  assert (Hext : ext m (M (combine ids ys ++ m_env T m) (m_mem T m))).
  { intros i x H. simpl. rewrite eget_combine_fresh; auto.
    rewrite Hids, in_seq. pose proof (sim_fresh _ _ _ Hs _ _ H). lia. }
  exists (M (combine ids ys ++ m_env T m) (m_mem T m)). split; [|split; auto].
  - destruct Hs. constructor; simpl; auto.
    + eapply run_snoc; eauto.
    + eapply ext_trans; eauto.
    + intros i x. rewrite eget_app. destruct (eget T (combine ids ys) i) eqn:E.
      * intros _. apply eget_combine_dom in E. rewrite Hids, in_seq in E. lia.
      * intros H. apply sim_fresh0 in H. lia.
    + intros k0 b H. eapply bok_ext; eauto.
    + intros r vs H. destruct (sim_unpack0 _ _ H) as [l [H1 H2]]. exists l. split; auto.
      eapply Forall2_imp; [|apply H2]. intros; eapply holds_ext; eauto.
    + intros p l H. specialize (sim_trk0 _ _ H). destruct (vget (s_vals s) (p, 0%nat)) as [[v|?|]|] eqn:E; auto.
      rewrite sim_trk0. specialize (sim_vals0 _ _ E). simpl in sim_vals0.
      destruct sim_vals0 as [x [_ [H2 _]]]. symmetry. rewrite H2. now apply Hext.
  - simpl.
    assert (F := eget_combine_in T ids ys (m_env T m)). rewrite Hids in F at 1.
    specialize (F (seq_NoDup _ _)). rewrite Hids, seq_length in F. specialize (F Hl).
    rewrite <- Hids in F. unfold ids in F at 2. clear - F.
    remember (combine ids ys ++ m_env T m) as c. clear Heqc.
    revert ys F. induction (mkvals (s_next s) tys); intros ys F; inversion F; subst; constructor; auto.
Qed.

Lemma emit1_sim : forall e s m k args t xs y v s',
  sim e s m -> Forall2 (fun v x => eg m (vid v) = Some x) args xs ->
  kind_sem T W k (map vid args) xs (m_mem T m) = Some ([y], m_mem T m) -> has_ty T t y ->
  emit1 k args t s = (v, s') ->
  exists m', sim e s' m' /\ ext m m' /\ holds m' v y.
Proof.
  intros e s m k args t xs y v s' Hs Ha Hk Ht He. unfold emit1 in He. inversion He; subst.
  destruct (emit_sim e s m k args [t] xs [y] Hs Ha Hk eq_refl) as (m' & H1 & H2 & H3).
  exists m'. split; [exact H1|]. split; auto. simpl in H3. inversion H3; subst.
  split; auto.
Qed.

Lemma lit_has_ty : forall l x, lit_val T W l = Some x -> has_ty T (lit_ty l) x.
Proof. intros [| | | | | |[]|] x H; simpl in *; inversion H; subst; simpl; auto. Qed.

Lemma import_const_sim : forall e s m l v s' x,
  sim e s m -> import_const l s = Some (v, s') -> lit_val T W l = Some x ->
  exists m', sim e s' m' /\ ext m m' /\ holds m' v x.
Proof.
  intros e s m l v s' x Hs Hi Hl.
  pose proof (lit_has_ty _ _ Hl) as Ht.
  assert (G : forall l' t, lit_val T W l' = Some x -> has_ty T t x ->
     Some (emit1 (KConst l') [] t s) = Some (v, s') ->
     exists m', sim e s' m' /\ ext m m' /\ holds m' v x).
  { intros l' t H1 H2 H3.
    assert (H4 : emit1 (KConst l') [] t s = (v, s')) by congruence.
    apply (emit1_sim e s m (KConst l') [] t [] x v s'); auto. simpl. now rewrite H1. }
  destruct l as [| | | | | |[c|]|]; simpl in Hi; try discriminate;
    (eapply G; [|exact Ht|exact Hi]); auto.
Qed.

Lemma import_literal_sim : forall e s m l v s' x,
  sim e s m -> import_literal l s = Some (v, s') -> lit_val T W l = Some x ->
  exists m', sim e s' m' /\ ext m m' /\ holds m' v x.
Proof.
  intros e s m l v s' x Hs Hi Hl.
  destruct l as [| | | | |id [|]| |]; cbn [import_literal] in Hi;
    try (eapply import_const_sim; eauto; fail).
  destruct (emit1 (KConstU8 id) [] TyVTensor s) as [c s1] eqn:E1.
  destruct (emit1 (KConst (LInt bool_code)) [] TyInt s1) as [d s2] eqn:E2.
  destruct (emit1_sim e s m (KConstU8 id) [] TyVTensor [] (RT (u8_of T W id)) _ _ Hs
     (Forall2_nil _) eq_refl I E1) as (m1 & S1 & X1 & C1).
  destruct (emit1_sim e s1 m1 (KConst (LInt bool_code)) [] TyInt [] (RInt bool_code) _ _ S1
     (Forall2_nil _) eq_refl I E2) as (m2 & S2 & X2 & C2).
  injection Hl as <-.
  destruct (emit1 (KTorch convert_elt) [c; d] TyVTensor s2) as [v3 s3] eqn:E3.
  injection Hi as <- <-.
  edestruct (emit1_sim e s2 m2 (KTorch convert_elt) [c; d] TyVTensor
     [RT (u8_of T W id); RInt bool_code] (RT (tensor_of T W id)) v3 s3 S2) as (m3 & S3 & X3 & C3).
  - constructor; [|constructor; [|constructor]]; [apply X2, C1|apply C2].
  - simpl. rewrite (Hbool id). reflexivity.
  - exact I.
  - exact E3.
  - exists m3. split; [exact S3|]. split; [|exact C3].
    eapply ext_trans; [exact X1|]. eapply ext_trans; eauto.
Qed.

(** Changing only the value table. *)
Lemma vals_sim : forall e s m l,
  sim e s m -> (forall k b, vget l k = Some b -> bok e m k b) ->
  (forall p t, tracked p t -> vget l (p, 0%nat) = vget (s_vals s) (p, 0%nat)) ->
  sim e (set_vals l s) m.
Proof.
  intros e s m l [] Hl Ht. constructor; simpl; auto.
  intros p t H. rewrite (Ht _ _ H). now apply sim_trk0.
Qed.

Lemma resolve_sim : forall e s m n i v s' x,
  sim e s m -> resolve n i s = Some (v, s') -> fvget e (n, i) = Some x ->
  exists m', sim e s' m' /\ ext m m' /\ holds m' v x.
Proof.
  intros e s m n i v s' x Hs Hr Hx. unfold resolve in Hr.
  destruct (vget (s_vals s) (n, i)) as [[v0|l|]|] eqn:E; try discriminate.
  - injection Hr as <- <-. exists m. split; auto. split; [apply ext_refl|].
    destruct (sim_vals _ _ _ Hs _ _ E) as [y [H1 H2]]. congruence.
  - destruct (import_literal l s) as [[v1 s1]|] eqn:E1; [|discriminate].
    cbn [obind] in Hr. injection Hr as <- <-.
    destruct (sim_vals _ _ _ Hs _ _ E) as [y [H1 H2]].
    assert (y = x) by congruence. subst y.
    destruct (import_literal_sim _ _ _ _ _ _ _ Hs E1 H2) as (m1 & S1 & X1 & C1).
    assert (Hv : s_vals s1 = s_vals s).
    { clear - E1. destruct l as [| | | | |? [|]|[|]|]; simpl in E1; try discriminate;
        now inversion E1. }
    exists m1. split; [|split; auto]. apply vals_sim; auto.
    + intros k b. rewrite vget_vset, Hv, E. destruct (keyb (n, i) k) eqn:Ek.
      * apply keyb_spec in Ek. subst k. intros [= <-]. simpl. eauto.
      * rewrite <- Hv. intros. now apply (sim_vals _ _ _ S1).
    + intros p t Ht. rewrite vget_vset, Hv, E. destruct (keyb (n, i) (p, 0%nat)) eqn:Ek; auto.
      apply keyb_spec in Ek. inversion Ek; subst.
      pose proof (sim_trk _ _ _ Hs _ _ Ht) as Hc. rewrite E in Hc. contradiction.
Qed.

Lemma loc_eqb_eq : forall a b, loc_eqb a b = true <-> a = b.
Proof.
  intros [m|x] [k|y]; simpl; rewrite ?Nat.eqb_eq, ?String.eqb_eq; split; intros H;
    try discriminate; try congruence.
Qed.

Lemma bind_sim : forall e s m n i v s' x,
  sim e s m -> bind n i (BVal v) s = Some s' -> fvget e (n, i) = Some x -> holds m v x ->
  exists m', sim e s' m' /\ ext m m'.
Proof.
  intros e s m n i v s' x Hs Hb Hx Hv. unfold bind in Hb.
  destruct (vget (s_vals s) (n, i)) eqn:E; [discriminate|].
  set (s1 := set_vals (((n, i), BVal v) :: s_vals s) s) in *.
  assert (Hi : forall l, tracked n l -> i = 0%nat).
  { intros l Hl. destruct (Htrk _ _ Hl) as (_ & _ & H3).
    unfold fvget in Hx. simpl in Hx. destruct (sget e n) eqn:En; [|discriminate].
    pose proof (sim_sub _ _ _ Hs _ _ En) as Hf. destruct (H3 _ Hf) as [y ->].
    destruct (Nat.eqb_spec i 0); auto. discriminate. }
  assert (Hvals : forall k b, vget (((n, i), BVal v) :: s_vals s) k = Some b -> bok e m k b).
  { intros k b. rewrite vget_cons. destruct (keyb (n, i) k) eqn:Ek.
    - apply keyb_spec in Ek. subst k. intros [= <-]. simpl. eauto.
    - intros. now apply (sim_vals _ _ _ Hs). }
  destruct (sget (s_hooks s1) n) as [h|] eqn:Eh.
  - (* hook fires *)
    assert (Hh : sget hooks0 n = Some h).
    { rewrite <- (sim_hooks _ _ _ Hs). exact Eh. }
    set (m1 := M (m_env T m) ((h, x) :: m_mem T m)).
    assert (Hs' : exists k a, s' = snd (emit k a [] s1) /\
              step T W m (Op k (map vid a) []) = Some m1).
    { destruct Hv as [Hv _]. destruct h as [t|buf]; simpl in Hb; injection Hb as <-.
      - pose proof (Hmut _ _ Hh) as Hm. destruct (eget T (m_env T m0) t) as [y|] eqn:Et;
          [|congruence]. clear Hm. apply (sim_base _ _ _ Hs) in Et.
        exists KOverwrite, [v; V t TyTensor]. split; auto. unfold step. simpl.
        rewrite Hv. simpl. rewrite Et. simpl. reflexivity.
      - exists (KStore buf), [v]. split; auto. unfold step. simpl.
        rewrite Hv. simpl. reflexivity. }
    destruct Hs' as (k & a & -> & Hst).
    exists m1. split; [|intros i0 y H; exact H].
    destruct Hs. constructor; simpl; auto.
    + eapply run_snoc; eauto.
    + intros i0 y H. apply sim_fresh0 in H. lia.
    + intros p l Hp. destruct (loc_eqb h l) eqn:El.
      * apply loc_eqb_eq in El. subst l. destruct (Htrk _ _ Hp) as (_ & H2 & _).
        pose proof (H2 _ Hh) as Heq. subst p. rewrite (Hi _ Hp), keyb_refl. symmetry. apply Hv.
      * destruct (keyb (n, i) (p, 0%nat)) eqn:Ek.
        -- apply keyb_spec in Ek. inversion Ek; subst. destruct (Htrk _ _ Hp) as (H1 & _ & _).
           assert (h = l) by congruence. apply loc_eqb_eq in H. congruence.
        -- now apply sim_trk0.
    + intros l Hl. destruct (loc_eqb h l) eqn:El.
      * apply loc_eqb_eq in El. subst l. exfalso. eapply Hl; eauto.
      * now apply sim_frame0.
  - injection Hb as <-. exists m. split; [|apply ext_refl]. apply vals_sim; auto.
    intros p t Hp. rewrite vget_cons. destruct (keyb (n, i) (p, 0%nat)) eqn:Ek; auto.
    apply keyb_spec in Ek. inversion Ek; subst. destruct (Htrk _ _ Hp) as (H1 & _ & _).
    simpl in Eh. rewrite (sim_hooks _ _ _ Hs) in Eh. congruence.
Qed.

Lemma convert_sim : forall e s m v x t v' s',
  sim e s m -> holds m v x -> convert_type v t s = (v', s') ->
  (t = Some JTensor -> is_scalar T x = false) ->
  exists m', sim e s' m' /\ ext m m' /\ holds m' v' (coerce T W t x).
Proof.
  intros e s m v x t v' s' Hs Hv Hc Ht.
  assert (Hd : forall k ty y, kind_sem T W k [vid v] [x] (m_mem T m) = Some ([y], m_mem T m) ->
     has_ty T ty y -> emit1 k [v] ty s = (v', s') ->
     exists m', sim e s' m' /\ ext m m' /\ holds m' v' y).
  { intros k ty y H1 H2 H3. apply (emit1_sim e s m k [v] ty [x] y v' s'); auto.
    constructor; [apply Hv|constructor]. }
  assert (Hn : coerce T W t x = x -> (v', s') = (v, s) ->
     exists m', sim e s' m' /\ ext m m' /\ holds m' v' (coerce T W t x)).
  { intros -> [= -> ->]. exists m. split; auto. split; [apply ext_refl|auto]. }
  unfold convert_type in Hc.
  destruct Hv as [Hv Hty].
  destruct (vty v), x; simpl in Hty; try contradiction;
  destruct t as [[]|]; try (apply Hn; [reflexivity|congruence]);
  try (specialize (Ht eq_refl); discriminate);
  eapply Hd; try exact Hc; simpl; auto.
Qed.

Lemma find_node_in : forall nd, In nd g -> find_node g (n_name nd) = Some nd.
Proof.
  unfold find_node. clear - Hnames. induction g as [|a r IH]; simpl; intros nd H; [contradiction|].
  simpl in Hnames. inversion Hnames as [|? ? Hn Hr]; subst. destruct H as [<-|H].
  - now rewrite String.eqb_refl.
  - destruct (String.eqb_spec (n_name a) (n_name nd)); auto.
    exfalso. apply Hn. rewrite e. now apply in_map.
Qed.

Lemma scalar_value : forall e s m n x, sim e s m -> sget e n = Some (FOne x) ->
  scal n = is_scalar T x.
Proof.
  intros e s m n x Hs Hx. destruct (sim_dom _ _ _ Hs _ _ Hx) as [nd [Hin <-]].
  apply (sim_sub _ _ _ Hs) in Hx. destruct (Hmeta _ _ Hin Hx) as (_ & _ & H).
  unfold g_scalar. now rewrite (find_node_in _ Hin).
Qed.

Lemma bind_attr_sim : forall e s m n obj s' x,
  sim e s m -> bind_attr n obj s = Some s' -> attr_of n = Some obj ->
  sget e n = Some (FOne x) -> exists m', sim e s' m' /\ ext m m'.
Proof.
  intros e s m n obj s' x Hs Hb Ha Hx. unfold bind_attr in Hb.
  destruct obj as [l|]; [|discriminate].
  pose proof (sim_attr _ _ _ Hs _ _ _ Ha Hx) as Hl.
  destruct (lit_val T W l) as [y|] eqn:El; [|discriminate]. injection Hl as ->.
  destruct (import_literal l s) as [[v s1]|] eqn:E1; [|discriminate]. cbn [obind] in Hb.
  destruct (import_literal_sim _ _ _ _ _ _ _ Hs E1 El) as (m1 & S1 & X1 & C1).
  destruct (bind_sim _ _ _ _ _ _ _ x S1 Hb) as (m2 & S2 & X2); auto.
  - unfold fvget. simpl. now rewrite Hx.
  - exists m2. split; auto. eapply ext_trans; eauto.
Qed.

Lemma eval_elem_list : forall e l,
  eval_elem T W e (AList l) = option_map RList (mapM (eval_elem T W e) l) /\
  eval_elem T W e (ATuple l) = option_map RList (mapM (eval_elem T W e) l).
Proof.
  intros e l. simpl. split; f_equal; induction l; simpl; auto;
    destruct (eval_elem T W e a); simpl; auto; rewrite IHl; now destruct (mapM _ l).
Qed.

Lemma node_value_fv : forall (e : fenv T) n x, eval_elem T W e (ANode n) = Some x ->
  sget e n = Some (FOne x) /\ fvget e (n, 0%nat) = Some x.
Proof.
  intros e n x H. simpl in H. unfold fvget. simpl.
  destruct (sget e n) as [[v|l]|]; try discriminate. injection H as ->. auto.
Qed.

Lemma import_elem_sim : forall e s m t o a v s' x,
  sim e s m -> import_elem attr_of t o a s = Some (v, s') -> eval_elem T W e a = Some x ->
  exists m', sim e s' m' /\ ext m m' /\ holds m' v x.
Proof.
  intros e s m t o a v s' x Hs Hi Hx. destruct a as [n|l|l|l]; cbn [import_elem] in Hi;
    try discriminate.
  - destruct (memb n (s_multi s)); [discriminate|].
    destruct (node_value_fv _ _ _ Hx) as [H1 H2].
    assert (G : exists s1 m1, (do s1 <- match attr_of n with
                 | Some obj => match vget (s_vals s) (n, 0%nat) with
                               | None => bind_attr n obj s
                               | Some _ => Some s
                               end
                 | None => Some s
                 end; Some s1) = Some s1 /\ sim e s1 m1 /\ ext m m1).
    { destruct (attr_of n) as [obj|] eqn:Ea.
      - destruct (vget (s_vals s) (n, 0%nat)) eqn:Ev.
        + exists s, m. repeat split; auto using ext_refl; apply Hs.
        + destruct (bind_attr n obj s) as [s1|] eqn:Eb; [|discriminate].
          destruct (bind_attr_sim _ _ _ _ _ _ _ Hs Eb Ea H1) as (m1 & S1 & X1).
          exists s1, m1. auto.
      - exists s, m. repeat split; auto using ext_refl; apply Hs. }
    destruct G as (s1 & m1 & E1 & S1 & X1).
    match type of Hi with obind ?c _ = _ => destruct c as [s1'|]; [|discriminate] end.
    cbn [obind] in E1. injection E1 as ->. cbn [obind] in Hi.
    destruct (resolve n 0 s1) as [[v2 s2]|] eqn:E2; [|discriminate]. cbn [obind] in Hi.
    destruct (node_elem_ok t v2); [|discriminate]. cbn [obind guard] in Hi.
    injection Hi as -> ->.
    destruct (resolve_sim _ _ _ _ _ _ _ _ S1 E2 H2) as (m2 & S2 & X2 & C2).
    exists m2. split; auto. split; auto. eapply ext_trans; eauto.
  - destruct (lit_elem_ok t o l); [|discriminate]. cbn [obind guard] in Hi.
    eapply import_const_sim; eauto.
Qed.

Lemma import_elems_sim : forall t o l e s m vs s' xs,
  sim e s m -> import_elems attr_of t o l s = Some (vs, s') ->
  mapM (eval_elem T W e) l = Some xs ->
  exists m', sim e s' m' /\ ext m m' /\ Forall2 (holds m') vs xs.
Proof.
  induction l as [|a r IH]; intros e s m vs s' xs Hs Hi Hx; simpl in Hi, Hx.
  - injection Hi as <- <-. injection Hx as <-. exists m. split; auto.
    split; [apply ext_refl|constructor].
  - destruct (import_elem attr_of t o a s) as [[v s1]|] eqn:E1; [|discriminate].
    cbn [obind] in Hi. destruct (import_elems attr_of t o r s1) as [[vs' s2]|] eqn:E2;
      [|discriminate]. cbn [obind] in Hi. injection Hi as <- <-.
    destruct (eval_elem T W e a) as [x|] eqn:Ex; [|discriminate]. cbn [obind] in Hx.
    destruct (mapM (eval_elem T W e) r) as [xs'|] eqn:Er; [|discriminate].
    cbn [obind] in Hx. injection Hx as <-.
    destruct (import_elem_sim _ _ _ _ _ _ _ _ _ Hs E1 Ex) as (m1 & S1 & X1 & C1).
    destruct (IH _ _ _ _ _ _ S1 E2 Er) as (m2 & S2 & X2 & C2).
    exists m2. split; auto. split; [eapply ext_trans; eauto|].
    constructor; auto. eapply holds_ext; eauto.
Qed.

Lemma holds_eg : forall m vs xs, Forall2 (holds m) vs xs ->
  Forall2 (fun v x => eg m (vid v) = Some x) vs xs.
Proof. intros. eapply Forall2_imp; [|eauto]. firstorder. Qed.

Lemma import_list_sim : forall t l e s m v s' xs,
  sim e s m -> import_list attr_of t l s = Some (v, s') ->
  mapM (eval_elem T W e) l = Some xs ->
  exists m', sim e s' m' /\ ext m m' /\ holds m' v (RList xs).
Proof.
  intros t l e s m v s' xs Hs Hi Hx. unfold import_list in Hi.
  destruct (elem_type t) as [[el o]|]; [|discriminate]. cbn [obind] in Hi.
  destruct (import_elems attr_of el o l s) as [[vs s1]|] eqn:E1; [|discriminate].
  cbn [obind] in Hi.
  destruct (import_elems_sim _ _ _ _ _ _ _ _ _ Hs E1 Hx) as (m1 & S1 & X1 & C1).
  remember (if o then TyListOpt (jt_ty el) else TyList (jt_ty el)) as lt.
  destruct (emit1 KListConstruct vs lt s1) as [v2 s2] eqn:E2. injection Hi as <- <-.
  destruct (emit1_sim e s1 m1 KListConstruct vs lt xs (RList xs) v2 s2 S1) as (m2 & S2 & X2 & C2);
    auto.
  - now apply holds_eg.
  - subst lt. destruct o; exact I.
  - exists m2. split; auto. split; auto. eapply ext_trans; eauto.
Qed.

Lemma coerce_tensor_idem : forall x, coerce T W (Some JTensor) (RT (num_tensor T W x)) = RT (num_tensor T W x).
Proof. reflexivity. Qed.

Lemma import_arg_sim : forall t a e s m v s' x,
  sim e s m -> import_arg attr_of t a s = Some (v, s') -> eval_arg T W e t a = Some x ->
  (forall n, t = Some JTensor -> a = ANode n -> scal n = false) ->
  exists m', sim e s' m' /\ ext m m' /\ holds m' v x.
Proof.
  intros t a e s m v s' x Hs Hi Hx Hsc. unfold eval_arg in Hx.
  destruct (eval_elem T W e a) as [y|] eqn:Ey; [|discriminate]. injection Hx as <-.
  destruct a as [n|l|l|l]; cbn [import_arg] in Hi; try discriminate.
  - destruct (memb n (s_multi s)); [discriminate|].
    destruct (node_value_fv _ _ _ Ey) as [H1 H2].
    assert (Hsc' : t = Some JTensor -> is_scalar T y = false).
    { intros ->. rewrite <- (scalar_value _ _ _ _ _ Hs H1). now apply Hsc. }
    assert (G : forall s1, match attr_of n with
                 | Some obj => bind_attr n obj s | None => Some s end = Some s1 ->
                 exists m1, sim e s1 m1 /\ ext m m1).
    { intros s1 H. destruct (attr_of n) as [obj|] eqn:Ea.
      - eapply bind_attr_sim; eauto.
      - injection H as <-. exists m. split; auto using ext_refl. }
    match type of Hi with obind ?c _ = _ => destruct c as [s1|]; [|discriminate] end.
    destruct (G _ eq_refl) as (m1 & S1 & X1). cbn [obind] in Hi.
    destruct (resolve n 0 s1) as [[v2 s2]|] eqn:E2; [|discriminate]. cbn [obind] in Hi.
    destruct (resolve_sim _ _ _ _ _ _ _ _ S1 E2 H2) as (m2 & S2 & X2 & C2).
    destruct (convert_type v2 t s2) as [v3 s3] eqn:E3. injection Hi as <- <-.
    destruct (convert_sim _ _ _ _ _ _ _ _ S2 C2 E3 Hsc') as (m3 & S3 & X3 & C3).
    exists m3. split; auto. split; auto. eapply ext_trans; [exact X1|]. eapply ext_trans; eauto.
  - assert (G : forall r v1 s1, import_literal l s = Some (v1, s1) ->
        Some (convert_type v1 t s1) = Some r -> r = (v, s') ->
        (t = Some JTensor -> is_scalar T y = false) ->
        exists m', sim e s' m' /\ ext m m' /\ holds m' v (coerce T W t y)).
    { intros r v1 s1 E1 E2 -> H. injection E2 as E2.
      destruct (import_literal_sim _ _ _ _ _ _ _ Hs E1 Ey) as (m1 & S1 & X1 & C1).
      destruct (convert_sim _ _ _ _ _ _ _ _ S1 C1 E2 H) as (m2 & S2 & X2 & C2).
      exists m2. split; auto. split; auto. eapply ext_trans; eauto. }
    assert (G2 : t = Some JTensor -> forall r v1 s1,
        import_scalar_as_tensor l s = Some (v1, s1) ->
        Some (convert_type v1 t s1) = Some r -> r = (v, s') ->
        exists m', sim e s' m' /\ ext m m' /\ holds m' v (coerce T W t y)).
    { intros -> r v1 s1 E1 E2 ->. injection E2 as E2.
      unfold import_scalar_as_tensor in E1.
      assert (H : exists c s0, import_const l s = Some (c, s0) /\ is_scalar T y = true /\
                    emit1 KNumToTensor [c] TyVTensor s0 = (v1, s1)).
      { simpl in Ey.
        destruct l; try discriminate; simpl in Ey; injection Ey as <-;
          match type of E1 with obind ?c _ = _ => destruct c as [[c0 s0]|] end;
          try discriminate; exists c0, s0; (split; [reflexivity|split; [reflexivity|]]);
          cbn [obind] in E1; congruence. }
      destruct H as (c & s0 & F1 & F2 & F3).
      destruct (import_const_sim _ _ _ _ _ _ _ Hs F1 Ey) as (m1 & S1 & X1 & C1).
      destruct (emit1_sim e s0 m1 KNumToTensor [c] TyVTensor [y] (RT (num_tensor T W y)) v1 s1 S1)
        as (m2 & S2 & X2 & C2); auto.
      - constructor; [apply C1|constructor].
      - simpl. now rewrite F2.
      - exact I.
      - destruct (convert_sim _ _ _ _ _ _ _ _ S2 C2 E2) as (m3 & S3 & X3 & C3); [reflexivity|].
        exists m3. split; auto. split.
        + eapply ext_trans; [exact X1|]. eapply ext_trans; eauto.
        + rewrite coerce_tensor_idem in C3. destruct y; try discriminate; exact C3. }
    destruct (import_literal l s) as [[v1 s1]|] eqn:E1;
    destruct (import_scalar_as_tensor l s) as [[v2 s2]|] eqn:E2; cbn [obind] in Hi;
    destruct t as [[]|]; destruct l; try discriminate;
    try (eapply G2; [reflexivity|reflexivity|exact Hi|reflexivity]);
    (eapply G; [reflexivity|exact Hi|reflexivity|]); try (intros; discriminate);
    simpl in Ey; injection Ey as <-; reflexivity.
  - destruct (eval_elem_list e l) as [El _]. rewrite El in Ey.
    destruct (mapM (eval_elem T W e) l) as [xs|] eqn:Em; [|discriminate]. injection Ey as <-.
    destruct (import_list attr_of t l s) as [[v1 s1]|] eqn:E1; [|discriminate].
    cbn [obind] in Hi. destruct (convert_type v1 t s1) as [v2 s2] eqn:E2. injection Hi as <- <-.
    destruct (import_list_sim _ _ _ _ _ _ _ _ Hs E1 Em) as (m1 & S1 & X1 & C1).
    destruct (convert_sim _ _ _ _ _ _ _ _ S1 C1 E2) as (m2 & S2 & X2 & C2); [reflexivity|].
    exists m2. split; auto. split; auto. eapply ext_trans; eauto.
Qed.

Lemma import_default_sim : forall t d e s m v s' x,
  sim e s m -> import_default attr_of t d s = Some (v, s') -> eval_dflt T W d = Some x ->
  exists m', sim e s' m' /\ ext m m' /\ holds m' v x.
Proof.
  intros t [l|l] e s m v s' x Hs Hi Hx; simpl in Hi, Hx.
  - eapply import_const_sim; eauto.
  - destruct (mapM (lit_val T W) l) as [xs|] eqn:E; [|discriminate]. injection Hx as <-.
    eapply import_list_sim; eauto. revert xs E. clear. induction l; simpl; intros; auto.
    destruct (lit_val T W a); [|discriminate]. simpl in *.
    destruct (mapM (lit_val T W) l); [|discriminate]. simpl in *.
    now rewrite (IHl _ eq_refl).
Qed.

Definition no_scalar (ps : list param) (i : nat) (args : list arg) (kw : list (string * arg)) :=
  forall j p m, nth_error ps j = Some p -> p_type p = JTensor ->
    (nth_error args (i + j) = Some (ANode m) \/
     nth_error args (i + j) = None /\ sget kw (p_name p) = Some (ANode m)) -> scal m = false.

Lemma import_params_sim : forall ps i args kw e s m vs s' xs,
  sim e s m -> import_params attr_of i ps args kw s = Some (vs, s') ->
  eval_params T W e args kw i ps = Some xs -> no_scalar ps i args kw ->
  exists m', sim e s' m' /\ ext m m' /\ Forall2 (holds m') vs xs.
Proof.
  induction ps as [|p r IH]; intros i args kw e s m vs s' xs Hs Hi Hx Hn;
    cbn [import_params eval_params] in Hi, Hx.
  - injection Hi as <- <-. injection Hx as <-. exists m. split; auto.
    split; [apply ext_refl|constructor].
  - destruct (eval_param T W e args kw i p) as [x|] eqn:Ex; [|discriminate].
    cbn [obind] in Hx. destruct (eval_params T W e args kw (S i) r) as [xs'|] eqn:Er;
      [|discriminate]. cbn [obind] in Hx. injection Hx as <-.
    match type of Hi with obind ?c _ = _ => destruct c as [[v s1]|] eqn:E1; [|discriminate] end.
    cbn [obind] in Hi.
    destruct (import_params attr_of (S i) r args kw s1) as [[vs' s2]|] eqn:E2; [|discriminate].
    cbn [obind] in Hi. injection Hi as <- <-.
    assert (exists m1, sim e s1 m1 /\ ext m m1 /\ holds m1 v x) as (m1 & S1 & X1 & C1).
    { unfold eval_param in Ex.
      destruct (nth_error args i) as [a|] eqn:Ea.
      - eapply import_arg_sim; eauto. intros n Ht ->. apply (Hn 0%nat p n); simpl; auto.
        + congruence. + left. now rewrite Nat.add_0_r.
      - destruct (sget kw (p_name p)) as [a|] eqn:Ek.
        + eapply import_arg_sim; eauto. intros n Ht ->. apply (Hn 0%nat p n); simpl; auto.
          * congruence. * right. now rewrite Nat.add_0_r.
        + destruct (p_default p); [|discriminate]. eapply import_default_sim; eauto. }
    destruct (IH _ _ _ _ _ _ _ _ _ S1 E2 Er) as (m2 & S2 & X2 & C2).
    { intros j q n Hj Ht Ha. apply (Hn (S j) q n); simpl; auto.
      now rewrite <- plus_n_Sm. }
    exists m2. split; auto. split; [eapply ext_trans; eauto|].
    constructor; auto. eapply holds_ext; eauto.
Qed.

(** ** Extending the FX environment *)
Lemma extend_sim : forall e s m nd f,
  sim e s m -> In nd g -> sget e (n_name nd) = None ->
  sget efin (n_name nd) = Some f ->
  (forall l, f = FMany l -> In (n_name nd) (s_multi s)) ->
  (In (n_name nd) (s_multi s) -> exists l, f = FMany l) ->
  (forall l, n_op nd = GetAttr (Some l) -> option_map FOne (lit_val T W l) = Some f) ->
  sim ((n_name nd, f) :: e) s m.
Proof.
  intros e s m nd f Hs Hin Hn Hf H1 H2 H3. destruct Hs. constructor; auto.
  - intros k b Hk. specialize (sim_vals0 _ _ Hk).
    assert (Hne : fst k <> n_name nd).
    { intros Heq. destruct b as [v|l|]; simpl in sim_vals0.
      - destruct sim_vals0 as [x [Hx _]]. unfold fvget in Hx. rewrite Heq, Hn in Hx. discriminate.
      - destruct sim_vals0 as [x [Hx _]]. unfold fvget in Hx. rewrite Heq, Hn in Hx. discriminate.
      - rewrite Heq in sim_vals0. contradiction. }
    assert (Hg : sget ((n_name nd, f) :: e) (fst k) = sget e (fst k)).
    { simpl. destruct (String.eqb_spec (n_name nd) (fst k)); congruence. }
    destruct b as [v|l|]; simpl in sim_vals0 |- *.
    + destruct sim_vals0 as [x [Hx Hh]]. exists x. split; auto.
      unfold fvget in *. now rewrite Hg.
    + destruct sim_vals0 as [x [Hx Hh]]. exists x. split; auto.
      unfold fvget in *. now rewrite Hg.
    + simpl in Hg. now rewrite Hg.
  - intros r vs Hr. destruct (sim_unpack0 _ _ Hr) as [l [Hl Hv]]. exists l. split; auto.
    simpl. destruct (String.eqb_spec (n_name nd) r); auto. subst. congruence.
  - intros n l f0 Ha. simpl. destruct (String.eqb_spec (n_name nd) n); [|eauto].
    subst n. intros [= <-]. apply H3. unfold g_attr in Ha. rewrite find_node_in in Ha; auto.
    destruct (n_op nd); congruence.
  - intros n f0. simpl. destruct (String.eqb_spec (n_name nd) n); [|eauto].
    intros [= <-]. now subst.
  - intros n f0. simpl. destruct (String.eqb_spec (n_name nd) n); [|eauto].
    intros _. exists nd. auto.
  - intros n l. simpl. destruct (String.eqb_spec (n_name nd) n); [|eauto].
    intros [= ->]. subst. eauto.
  - intros n f0. simpl. destruct (String.eqb_spec (n_name nd) n); [|eauto].
    intros Hm [= <-]. subst. auto.
Qed.

Lemma multi_sim : forall e s m n, sim e s m ->
  (forall f, sget e n = Some f -> exists l, f = FMany l) ->
  sim e (set_multi (n :: s_multi s) s) m.
Proof.
  intros e s m n [] Hn. constructor; simpl; auto.
  - intros; right; eauto.
  - intros n0 f [<-|H] Hf; eauto.
Qed.

Lemma bind_results_sim : forall vs xs n i e s m s',
  sim e s m -> bind_results n i vs s = Some s' -> Forall2 (holds m) vs xs ->
  (forall j x, nth_error xs j = Some x -> fvget e (n, i + j)%nat = Some x) ->
  exists m', sim e s' m' /\ ext m m'.
Proof.
  induction vs as [|v r IH]; intros xs n i e s m s' Hs Hb Hv Hx; simpl in Hb.
  - injection Hb as <-. exists m. split; auto using ext_refl.
  - inversion Hv as [|? x ? xs' Hv1 Hv2]; subst.
    destruct (bind n i (BVal v) s) as [s1|] eqn:E1; [|discriminate]. cbn [obind] in Hb.
    destruct (bind_sim e s m n i v s1 x Hs E1) as (m1 & S1 & X1); auto.
    { specialize (Hx 0%nat x eq_refl). now rewrite Nat.add_0_r in Hx. }
    destruct (IH xs' n (S i) e s1 m1 s' S1 Hb) as (m2 & S2 & X2).
    + eapply Forall2_imp; [|eauto]. intros; eapply holds_ext; eauto.
    + intros j y Hj. specialize (Hx (S j) y Hj). now rewrite Nat.add_succ_r in Hx.
    + exists m2. split; auto. eapply ext_trans; eauto.
Qed.

Lemma bind_none_sim : forall e s m n s', sim e s m -> bind n 0 BNone s = Some s' ->
  sget e n <> None -> sim e s' m.
Proof.
  intros e s m n s' Hs Hb Hn. unfold bind in Hb.
  destruct (vget (s_vals s) (n, 0%nat)) eqn:E; [discriminate|].
  match type of Hb with match ?c with _ => _ end = _ => destruct c eqn:Eh end; [discriminate|].
  injection Hb as <-. apply vals_sim; auto.
  - intros k b. rewrite vget_cons. destruct (keyb (n, 0%nat) k) eqn:Ek.
    + apply keyb_spec in Ek. subst k. intros [= <-]. exact Hn.
    + intros. now apply (sim_vals _ _ _ Hs).
  - intros p t Hp. rewrite vget_cons. destruct (keyb (n, 0%nat) (p, 0%nat)) eqn:Ek; auto.
    apply keyb_spec in Ek. inversion Ek; subst. destruct (Htrk _ _ Hp) as (H1 & _ & _).
    simpl in Eh. rewrite (sim_hooks _ _ _ Hs) in Eh. congruence.
Qed.

(** ** Calls *)
Lemma pick_eval : forall e s m sch args kw sch' rs,
  sim e s m -> used_schema registry g sch -> pick_schema scal registry sch args = Some sch' ->
  eval_call T W e sch args kw = Some rs ->
  eval_call T W e sch' args kw = Some rs /\ s_returns sch' = s_returns sch.
Proof.
  intros e s m sch args kw sch' rs Hs Hu Hp He. unfold pick_schema in Hp.
  destruct (scalar_variant (s_op sch)) as [v|] eqn:Ev; [|injection Hp as <-; auto].
  destruct (nth_error args 1) as [a1|] eqn:E1; [|discriminate].
  destruct (is_scalar_arg scal a1) eqn:Es; [|injection Hp as <-; auto].
  destruct (Hscal _ _ _ Hu Ev Hp) as (Ho & R1 & R2 & (p0 & p1 & p1' & r & P1 & P2 & T1 & T2) & Hop).
  split; [|congruence].
  unfold eval_call in *. rewrite P1 in He. rewrite P2. cbn [eval_params] in *.
  destruct (eval_param T W e args kw 0 p0) as [x0|] eqn:X0; [|discriminate]. cbn [obind] in *.
  unfold eval_param in He at 1. unfold eval_param at 1. rewrite E1 in *.
  unfold eval_arg in *. destruct (eval_elem T W e a1) as [y|] eqn:Ey; [|discriminate].
  cbn [option_map obind] in *. rewrite T1 in He. rewrite T2.
  assert (Hy : is_scalar T y = true).
  { destruct a1 as [n|l| |]; simpl in Es; try discriminate.
    - destruct (node_value_fv _ _ _ Ey) as [Hn _].
      now rewrite <- (scalar_value _ _ _ _ _ Hs Hn).
    - destruct l; try discriminate; simpl in Ey; injection Ey as <-; reflexivity. }
  assert (Hc : coerce T W (Some JTensor) y = RT (num_tensor T W y)).
  { destruct y; try discriminate; reflexivity. }
  rewrite Hc in He.
  destruct (eval_params T W e args kw 2 r) as [rest|]; [|discriminate]. cbn [obind] in *.
  rewrite Ho, <- Hop; auto.
Qed.

Definition extend (n : string) (f : option (fv T)) (e : fenv T) : fenv T :=
  match f with Some x => (n, x) :: e | None => e end.

Lemma nth_map_Some : forall A (l : list A) j x, nth_error l j = Some x ->
  nth_error (map Some l) j = Some (Some x).
Proof. intros. rewrite nth_error_map, H. reflexivity. Qed.

Lemma result_facts : forall nd sch tys rs fo,
  In nd g -> result_types nd sch = Some tys -> one_or_many T (s_returns sch) rs = Some fo ->
  (forall f, fo = Some f -> sget efin (n_name nd) = Some f) ->
  Forall2 (has_ty T) tys rs /\
  ((fo = None /\ rs = []) \/ (exists v, fo = Some (FOne v) /\ rs = [v]) \/
   (fo = Some (FMany (map Some rs)) /\ (1 < length tys)%nat)).
Proof.
  intros nd sch tys rs fo Hin Ht Ho Hf. unfold result_types in Ht.
  destruct (s_returns sch) as [|[|k]]; simpl in Ho.
  - destruct rs; [|discriminate]. injection Ho as <-. injection Ht as <-. auto.
  - destruct rs as [|v [|]]; try discriminate. injection Ho as <-.
    destruct (n_ty nd) as [t|] eqn:En; [|discriminate]. injection Ht as <-.
    specialize (Hf _ eq_refl). destruct (Hmeta _ _ Hin Hf) as (H1 & _).
    split; [constructor; auto|]. right. left. eauto.
  - destruct (Nat.eqb_spec (length rs) (S (S k))) as [Hl|]; [|destruct rs; simpl in *; try destruct (Nat.eqb_spec (length rs) (S k)); congruence].
    assert (Hfo : fo = Some (FMany (map Some rs))).
    { destruct rs as [|? rs]; simpl in *; [discriminate|].
      destruct (Nat.eqb_spec (length rs) (S k)); congruence. }
    subst fo. specialize (Hf _ eq_refl). destruct (Hmeta _ _ Hin Hf) as (_ & H2).
    specialize (H2 _ Ht).
    assert (HF : Forall2 (has_ty T) tys rs).
    { clear - H2. revert rs H2. induction tys; intros [|x rs] H; simpl in H; inversion H; subst;
        constructor; auto. }
    split; auto. right. right. split; auto. rewrite (Forall2_len _ _ _ _ _ HF). lia.
Qed.

Lemma vals_hold : forall m vs rs, Forall2 (fun v y => eg m (vid v) = Some y) vs rs ->
  Forall2 (has_ty T) (map vty vs) rs -> Forall2 (holds m) vs rs.
Proof.
  intros m vs rs H. induction H; simpl; intros Ht; constructor; inversion Ht; subst; auto.
  split; auto.
Qed.

Lemma import_call_sim : forall N e s m nd args kw sch s' rs fo,
  wf N s -> sim e s m -> used_schema registry g sch -> In nd g -> sget e (n_name nd) = None ->
  (forall o, n_op nd <> GetAttr o) -> ~ In (n_name nd) (s_multi s) ->
  import_call attr_of scal registry nd args kw sch s = Some s' ->
  eval_call T W e sch args kw = Some rs ->
  one_or_many T (s_returns sch) rs = Some fo ->
  (forall f, fo = Some f -> sget efin (n_name nd) = Some f) ->
  (forall sch', pick_schema scal registry sch args = Some sch' -> ~ scalar_operand g sch' args kw) ->
  exists m', sim (extend (n_name nd) fo e) s' m' /\ ext m m'.
Proof.
  intros N e s m nd args kw sch0 s' rs fo Hw Hs Hu Hin Hfresh Hop Hnm Hi He Ho Hef Hns.
  unfold import_call in Hi.
  destruct (String.eqb (s_op sch0) "torch.aten.as_strided"); [discriminate|].
  destruct (pick_schema scal registry sch0 args) as [sch|] eqn:Ep; [|discriminate].
  cbn [obind] in Hi.
  destruct (pick_eval _ _ _ _ _ _ _ _ Hs Hu Ep He) as [He' Hr]. rewrite <- Hr in Ho.
  destruct (result_types nd sch) as [tys|] eqn:Et; [|discriminate]. cbn [obind] in Hi.
  destruct (result_facts _ _ _ _ _ Hin Et Ho Hef) as [Hty Hfo].
  set (s0 := if (1 <? length tys)%nat then set_multi (n_name nd :: s_multi s) s else s) in *.
  assert (W0 : wf N s0).
  { unfold s0. destruct (1 <? length tys)%nat; auto using set_multi_wf. }
  assert (S0 : sim e s0 m).
  { unfold s0. destruct (1 <? length tys)%nat; auto. apply multi_sim; auto. congruence. }
  destruct (import_params attr_of 0 (s_params sch) args kw s0) as [[vs s1]|] eqn:E1;
    [|discriminate]. cbn [obind] in Hi.
  unfold eval_call in He'.
  destruct (eval_params T W e args kw 0 (s_params sch)) as [xs|] eqn:Ex; [|discriminate].
  cbn [obind] in He'.
  destruct (import_params_sim _ _ _ _ _ _ _ _ _ _ S0 E1 Ex) as (m1 & S1 & X1 & C1).
  { intros j p n Hj Ht Ha. destruct (scal n) eqn:Esc; auto. exfalso. apply (Hns _ eq_refl).
    exists j, p, n. simpl in Ha. auto. }
  destruct (import_params_wf _ _ _ _ _ _ _ _ _ W0 E1) as (_ & G1 & _).
  apply gr_multi in G1.
  destruct (emit_sim e s1 m1 (KTorch (s_op sch)) vs tys xs rs S1 (holds_eg _ _ _ C1))
    as (m2 & S2 & X2 & C2).
  { simpl. now rewrite He'. }
  { symmetry. eapply Forall2_len; eauto. }
  assert (C3 : Forall2 (holds m2) (fst (emit (KTorch (s_op sch)) vs tys s1)) rs).
  { apply vals_hold; auto. simpl. now rewrite mkvals_tys. }
  change (bind_results (n_name nd) 0 (fst (emit (KTorch (s_op sch)) vs tys s1))
            (snd (emit (KTorch (s_op sch)) vs tys s1)) = Some s') in Hi.
  set (s2 := snd (emit (KTorch (s_op sch)) vs tys s1)) in *.
  set (rvs := fst (emit (KTorch (s_op sch)) vs tys s1)) in *.
  assert (M2 : s_multi s2 = s_multi s0) by exact G1.
  assert (Hlen : length tys = length rs) by (eapply Forall2_len; eauto).
  assert (S3 : sim (extend (n_name nd) fo e) s2 m2).
  { destruct Hfo as [[-> _]|[[v [-> ->]]|[-> Hl]]]; simpl; auto.
    - apply extend_sim; auto; try discriminate.
      + rewrite M2. unfold s0. simpl in Hlen. rewrite Hlen. simpl. contradiction.
      + intros l Hl. exfalso. eapply Hop; eauto.
    - apply extend_sim; auto.
      + intros _ _. rewrite M2. unfold s0. apply Nat.ltb_lt in Hl. rewrite Hl. simpl. auto.
      + eauto.
      + intros l Hl'. exfalso. eapply Hop; eauto. }
  destruct (bind_results_sim _ rs _ _ _ _ _ _ S3 Hi C3) as (m3 & S4 & X3).
  { intros j x Hj. destruct Hfo as [[-> ->]|[[v [-> ->]]|[-> Hl]]]; simpl.
    - destruct j; discriminate.
    - destruct j as [|[|]]; try discriminate. injection Hj as ->. unfold fvget. simpl.
      now rewrite String.eqb_refl.
    - unfold fvget. simpl. rewrite String.eqb_refl. now rewrite (nth_map_Some _ _ _ _ Hj). }
  exists m3. split; auto. eapply ext_trans; [exact X1|]. eapply ext_trans; eauto.
Qed.

(** ** Functionalised custom operators *)
Lemma import_named_sim : forall ps i kw e s m vs s' xs,
  sim e s m -> import_named attr_of ps kw s = Some (vs, s') ->
  eval_params T W e [] kw i ps = Some xs -> no_scalar ps i [] kw ->
  exists m', sim e s' m' /\ ext m m' /\ Forall2 (holds m') vs xs.
Proof.
  induction ps as [|p r IH]; intros i kw e s m vs s' xs Hs Hi Hx Hn;
    cbn [import_named eval_params] in Hi, Hx.
  - injection Hi as <- <-. injection Hx as <-. exists m. split; auto.
    split; [apply ext_refl|constructor].
  - destruct (eval_param T W e [] kw i p) as [x|] eqn:Ex; [|discriminate].
    cbn [obind] in Hx. destruct (eval_params T W e [] kw (S i) r) as [xs'|] eqn:Er;
      [|discriminate]. cbn [obind] in Hx. injection Hx as <-.
    destruct (sget kw (p_name p)) as [a|] eqn:Ek; [|discriminate]. cbn [obind] in Hi.
    destruct (import_arg attr_of (Some (p_type p)) a s) as [[v s1]|] eqn:E1; [|discriminate].
    cbn [obind] in Hi. destruct (import_named attr_of r kw s1) as [[vs' s2]|] eqn:E2;
      [|discriminate]. cbn [obind] in Hi. injection Hi as <- <-.
    unfold eval_param in Ex. replace (nth_error (@nil arg) i) with (@None arg) in Ex
      by (destruct i; reflexivity). rewrite Ek in Ex.
    destruct (import_arg_sim _ _ _ _ _ _ _ _ Hs E1 Ex) as (m1 & S1 & X1 & C1).
    { intros n Ht ->. injection Ht as Ht. apply (Hn 0%nat p n); auto. right. split; auto.
      destruct (i + 0)%nat; reflexivity. }
    destruct (IH _ _ _ _ _ _ _ _ S1 E2 Er) as (m2 & S2 & X2 & C2).
    { intros j q k Hj Ht Hq. apply (Hn (S j) q k); auto. now rewrite Nat.add_succ_r. }
    exists m2. split; auto. split; [eapply ext_trans; eauto|].
    constructor; auto. eapply holds_ext; eauto.
Qed.

Lemma import_auto_sim : forall e s m nd sch s' rs,
  let l := if Nat.eqb (s_returns sch) 0 then None :: map Some rs else map Some rs in
  sim e s m -> In nd g -> sget e (n_name nd) = None ->
  (forall o, n_op nd <> GetAttr o) ->
  import_auto attr_of nd sch s = Some s' ->
  eval_call T W e sch [] (n_kwargs nd) = Some rs ->
  sget efin (n_name nd) = Some (FMany l) ->
  ~ scalar_operand g sch [] (n_kwargs nd) ->
  exists m', sim ((n_name nd, FMany l) :: e) s' m' /\ ext m m'.
Proof.
  intros e s m nd sch s' rs l Hs Hin Hfresh Hop Hi He Hef Hns.
  unfold import_auto in Hi.
  destruct (n_tys nd) as [tys|] eqn:Et; [|discriminate]. cbn [obind] in Hi.
  destruct (Hmeta _ _ Hin Hef) as (_ & H2). specialize (H2 _ Et).
  match type of Hi with obind ?c _ = _ => destruct c as [irtys|] eqn:Ei; [|discriminate] end.
  cbn [obind] in Hi.
  assert (Hty : Forall2 (has_ty T) irtys rs).
  { assert (A : forall ts rs, Forall2 (fun t o => has_ty T t match o with Some v => v | None => RNone end)
        ts (map Some rs) -> Forall2 (has_ty T) ts rs).
    { clear. induction ts; intros [|x r] H; simpl in H; inversion H; subst; constructor; auto. }
    unfold l in H2. destruct (Nat.eqb (s_returns sch) 0).
    - destruct tys as [|[] r]; try discriminate. injection Ei as <-. inversion H2; subst. auto.
    - injection Ei as <-. auto. }
  destruct (import_named attr_of (s_params sch) (n_kwargs nd) s) as [[vs s1]|] eqn:E1;
    [|discriminate]. cbn [obind] in Hi.
  unfold eval_call in He.
  destruct (eval_params T W e [] (n_kwargs nd) 0 (s_params sch)) as [xs|] eqn:Ex; [|discriminate].
  cbn [obind] in He.
  destruct (import_named_sim _ _ _ _ _ _ _ _ _ Hs E1 Ex) as (m1 & S1 & X1 & C1).
  { intros j p n Hj Ht Ha. destruct (scal n) eqn:Esc; auto. exfalso. apply Hns.
    exists j, p, n. simpl in Ha. auto. }
  destruct (emit_sim e s1 m1 (KTorch (s_op sch)) vs irtys xs rs S1 (holds_eg _ _ _ C1))
    as (m2 & S2 & X2 & C2).
  { simpl. now rewrite He. }
  { symmetry. eapply Forall2_len; eauto. }
  assert (C3 : Forall2 (holds m2) (fst (emit (KTorch (s_op sch)) vs irtys s1)) rs).
  { apply vals_hold; auto. simpl. now rewrite mkvals_tys. }
  rewrite (surjective_pairing (emit (KTorch (s_op sch)) vs irtys s1)) in Hi.
  set (s2 := snd (emit (KTorch (s_op sch)) vs irtys s1)) in *.
  set (rvs := fst (emit (KTorch (s_op sch)) vs irtys s1)) in *.
  set (s3 := set_multi (n_name nd :: s_multi s2) s2) in *.
  assert (S3 : sim ((n_name nd, FMany l) :: e) s3 m2).
  { apply extend_sim; auto.
    - apply multi_sim; auto. congruence.
    - intros _ _. simpl. auto.
    - eauto.
    - intros l0 Hl'. exfalso. eapply Hop; eauto. }
  assert (Hg : forall i, fvget ((n_name nd, FMany l) :: e) (n_name nd, i) =
     match nth_error l i with Some o => o | None => None end).
  { intros i. unfold fvget. simpl. now rewrite String.eqb_refl. }
  assert (X12 : ext m m2) by (eapply ext_trans; eauto).
  destruct (Nat.eqb (s_returns sch) 0) eqn:Er.
  - destruct (bind (n_name nd) 0 BNone s3) as [s4|] eqn:E4; [|discriminate]. cbn [obind] in Hi.
    assert (S4 : sim ((n_name nd, FMany l) :: e) s4 m2).
    { eapply bind_none_sim; eauto. simpl. rewrite String.eqb_refl. discriminate. }
    destruct (bind_results_sim _ rs _ _ _ _ _ _ S4 Hi C3) as (m3 & S5 & X3).
    { intros j x Hj. rewrite Hg. unfold l. rewrite ?Er. simpl. now rewrite (nth_map_Some _ _ _ _ Hj). }
    exists m3. split; auto. eapply ext_trans; eauto.
  - destruct (bind_results_sim _ rs _ _ _ _ _ _ S3 Hi C3) as (m3 & S5 & X3).
    { intros j x Hj. rewrite Hg. unfold l. rewrite ?Er. simpl. now rewrite (nth_map_Some _ _ _ _ Hj). }
    exists m3. split; auto. eapply ext_trans; eauto.
Qed.

(** ** getitem *)
Lemma pyidx_nonneg : forall A (l : list A) i x, (i <? 0) = false -> pyidx l i = Some x ->
  nth_error l (Z.to_nat i) = Some x.
Proof.
  unfold pyidx. intros A l i x Hi. rewrite Hi.
  repeat match goal with |- context [if ?c then _ else _] => destruct c end; congruence.
Qed.

Lemma pyidx_F2 : forall A B (R : A -> B -> Prop) l1 l2 i x,
  Forall2 R l1 l2 -> pyidx l1 i = Some x -> exists y, pyidx l2 i = Some y /\ R x y.
Proof.
  unfold pyidx, zlen. intros A B R l1 l2 i x HF. rewrite (Forall2_len _ _ _ _ _ HF).
  assert (N : forall k, nth_error l1 k = Some x -> exists y, nth_error l2 k = Some y /\ R x y).
  { clear - HF. induction HF; intros [|k] Hk; simpl in *; try discriminate; eauto.
    injection Hk as <-. eauto. }
  repeat match goal with |- context [if ?c then _ else _] => destruct c end; auto; discriminate.
Qed.

Lemma memb_multi : forall e s m r f, sim e s m -> sget e r = Some f ->
  memb r (s_multi s) = match f with FMany _ => true | FOne _ => false end.
Proof.
  intros e s m r f Hs Hf. destruct (memb r (s_multi s)) eqn:E.
  - apply memb_In in E. destruct (sim_multi _ _ _ Hs _ _ E Hf) as [l ->]. reflexivity.
  - destruct f; auto. apply (sim_many _ _ _ Hs) in Hf. apply memb_In in Hf. congruence.
Qed.

Lemma import_getitem_sim : forall e s m nd s' x,
  sim e s m -> In nd g -> sget e (n_name nd) = None -> n_op nd = Call TGetitem ->
  ~ In (n_name nd) (s_multi s) ->
  import_getitem g nd s = Some s' ->
  node_value T W e nd = Some (Some (FOne x)) ->
  sget efin (n_name nd) = Some (FOne x) ->
  exists m', sim ((n_name nd, FOne x) :: e) s' m' /\ ext m m'.
Proof.
  intros e s m nd s' x Hs Hin Hfresh Hop Hnm Hi Hv Hef.
  unfold import_getitem in Hi. unfold node_value in Hv. rewrite Hop in Hv.
  destruct (n_args nd) as [|[r| | |] [|[|[| |i| | | | |]| |] [|]]]; try discriminate.
  destruct (sget e r) as [f|] eqn:Er; [|discriminate].
  assert (B : forall s1 m1 v, sim e s1 m1 -> s_multi s1 = s_multi s -> holds m1 v x ->
     bind (n_name nd) 0 (BVal v) s1 = Some s' ->
     exists m', sim ((n_name nd, FOne x) :: e) s' m' /\ ext m1 m').
  { intros s1 m1 v S1 Hm Hh Hb.
    assert (S2 : sim ((n_name nd, FOne x) :: e) s1 m1).
    { apply extend_sim; auto; try discriminate.
      - rewrite Hm. contradiction.
      - intros l Hl. congruence. }
    eapply bind_sim; eauto. unfold fvget. simpl. now rewrite String.eqb_refl. }
  rewrite (memb_multi _ _ _ _ _ Hs Er) in Hi.
  destruct f as [y|l].
  - destruct y as [| | | | | | |l]; try discriminate.
    destruct (pyidx l i) as [x'|] eqn:Ep; [|discriminate]. injection Hv as ->.
    assert (U : exists s1 m1 vs, s_multi s1 = s_multi s /\ sim e s1 m1 /\ ext m m1 /\
        sget (s_unpack s1) r = Some vs /\
        (do v <- pyidx vs i; bind (n_name nd) 0 (BVal v) s1) = Some s').
    { match type of Hi with obind ?c _ = _ => destruct c as [s1|] eqn:E1; [|discriminate] end.
      cbn [obind] in Hi. destruct (sget (s_unpack s1) r) as [vs|] eqn:E2; [|discriminate].
      cbn [obind] in Hi.
      destruct (sget (s_unpack s) r) as [vs0|] eqn:E3.
      - injection E1 as <-. exists s, m, vs. repeat split; auto using ext_refl; apply Hs.
      - destruct (resolve r 0 s) as [[v s2]|] eqn:E4; [|discriminate]. cbn [obind] in E1.
        assert (Hf : fvget e (r, 0%nat) = Some (RList l)) by (unfold fvget; simpl; now rewrite Er).
        destruct (resolve_sim _ _ _ _ _ _ _ _ Hs E4 Hf) as (m2 & S2 & X2 & C2).
        assert (M2 : s_multi s2 = s_multi s /\ s_unpack s2 = s_unpack s).
        { clear - E4. unfold resolve in E4.
          destruct (vget (s_vals s) (r, 0%nat)) as [[|li|]|]; try discriminate;
            [injection E4 as <- <-; auto|].
          destruct (import_literal li s) as [[v1 s1]|] eqn:E; [|discriminate].
          cbn [obind] in E4. injection E4 as <- <-. simpl.
          destruct li as [| | | | |? [|]|[|]|]; simpl in E; try discriminate; inversion E; auto. }
        destruct M2 as [M2 U2].
        destruct (is_list_ty (vty v)) eqn:El.
        + destruct (find_node g r) as [rn|] eqn:Ern; [|discriminate]. cbn [obind] in E1.
          destruct (n_tys rn) as [tys|] eqn:Etys; [|discriminate]. cbn [obind] in E1.
          rewrite (surjective_pairing (emit KListUnpack [v] tys s2)) in E1.
          injection E1 as <-.
          assert (Hty : Forall2 (has_ty T) tys l).
          { unfold find_node in Ern. apply find_some in Ern. destruct Ern as [Hri Hrn].
            apply String.eqb_eq in Hrn. subst r.
            pose proof (sim_sub _ _ _ Hs _ _ Er) as Hfr.
            destruct (Hmeta _ _ Hri Hfr) as (_ & H2 & _). eapply H2; eauto. }
          destruct (emit_sim e s2 m2 KListUnpack [v] tys [RList l] l S2) as (m3 & S3 & X3 & C3).
          { constructor; [apply C2|constructor]. }
          { reflexivity. }
          { symmetry. eapply Forall2_len; eauto. }
          exists (set_unpack ((r, fst (emit KListUnpack [v] tys s2)) ::
            s_unpack (snd (emit KListUnpack [v] tys s2))) (snd (emit KListUnpack [v] tys s2))), m3, vs.
          split; [exact M2|]. split; [|split; [eapply ext_trans; eauto|]].
          * destruct S3. constructor; auto. simpl. intros r0 vs0.
            destruct (String.eqb_spec r r0) as [Heq|]; [|eauto]. subst r0. intros [= <-].
            exists l. split; auto. apply vals_hold; auto.
            rewrite mkvals_tys. auto.
          * split; auto.
        + injection E1 as <-. rewrite U2, E3 in E2. discriminate. }
    destruct U as (s1 & m1 & vs & M1 & S1 & X1 & U1 & Hi').
    destruct (sim_unpack _ _ _ S1 _ _ U1) as [l' [Hl' HF]]. rewrite Er in Hl'.
    injection Hl' as <-.
    destruct (pyidx vs i) as [v|] eqn:Ev; [|discriminate]. cbn [obind] in Hi'.
    destruct (pyidx_F2 _ _ _ _ _ _ _ HF Ev) as [y [Hy1 Hy2]].
    assert (y = x) by congruence. subst y.
    destruct (B _ _ _ S1 M1 Hy2 Hi') as (m2 & S2 & X2). exists m2. split; auto.
    eapply ext_trans; eauto.
  - destruct (i <? 0) eqn:En; [discriminate|].
    destruct (pyidx l i) as [o|] eqn:Ep; [|discriminate]. cbn [obind] in Hv.
    destruct o as [y|]; [|discriminate]. injection Hv as ->.
    apply pyidx_nonneg in Ep; auto.
    destruct (resolve r (Z.to_nat i) s) as [[v s1]|] eqn:E1; [|discriminate]. cbn [obind] in Hi.
    assert (Hf : fvget e (r, Z.to_nat i) = Some x).
    { unfold fvget. simpl. rewrite Er, Ep. reflexivity. }
    destruct (resolve_sim _ _ _ _ _ _ _ _ Hs E1 Hf) as (m1 & S1 & X1 & C1).
    assert (M1 : s_multi s1 = s_multi s).
    { clear - E1. unfold resolve in E1.
      destruct (vget (s_vals s) (r, Z.to_nat i)) as [[|li|]|]; try discriminate;
        [injection E1 as <- <-; auto|].
      destruct (import_literal li s) as [[v1 s1']|] eqn:E; [|discriminate].
      cbn [obind] in E1. injection E1 as <- <-. simpl.
      destruct li as [| | | | |? [|]|[|]|]; simpl in E; try discriminate; inversion E; auto. }
    destruct (B _ _ _ S1 M1 C1 Hi) as (m2 & S2 & X2). exists m2. split; auto.
    eapply ext_trans; eauto.
Qed.

Lemma import_outs_sim : forall l e s m vs s' xs,
  sim e s m -> import_outs attr_of l s = Some (vs, s') ->
  mapM (eval_arg T W e None) l = Some xs ->
  exists m', sim e s' m' /\ ext m m' /\ Forall2 (holds m') vs xs.
Proof.
  induction l as [|a r IH]; intros e s m vs s' xs Hs Hi Hx; cbn [import_outs] in Hi; simpl in Hx.
  - injection Hi as <- <-. injection Hx as <-. exists m. split; auto.
    split; [apply ext_refl|constructor].
  - destruct (import_arg attr_of None a s) as [[v s1]|] eqn:E1; [|discriminate].
    cbn [obind] in Hi. destruct (import_outs attr_of r s1) as [[vs' s2]|] eqn:E2;
      [|discriminate]. cbn [obind] in Hi. injection Hi as <- <-.
    destruct (eval_arg T W e None a) as [x|] eqn:Ex; [|discriminate]. cbn [obind] in Hx.
    destruct (mapM (eval_arg T W e None) r) as [xs'|] eqn:Er; [|discriminate].
    cbn [obind] in Hx. injection Hx as <-.
    destruct (import_arg_sim _ _ _ _ _ _ _ _ Hs E1 Ex) as (m1 & S1 & X1 & C1); [discriminate|].
    destruct (IH _ _ _ _ _ _ S1 E2 Er) as (m2 & S2 & X2 & C2).
    exists m2. split; auto. split; [eapply ext_trans; eauto|].
    constructor; auto. eapply holds_ext; eauto.
Qed.

(** ** Whole node lists *)
Lemma fx_run_sub : forall ns e ins e' o, fx_run T W e ns ins = Some (e', o) ->
  NoDup (map n_name ns) -> (forall n, In n (map n_name ns) -> sget e n = None) ->
  forall n f, sget e n = Some f -> sget e' n = Some f.
Proof.
  induction ns as [|nd r IH]; intros e ins e' o H Hnd Hf n f Hn; simpl in H.
  - congruence.
  - simpl in Hnd, Hf. inversion Hnd as [|? ? Hnot Hnd']; subst.
    assert (Hx : forall fo ins' o', fx_run T W (extend (n_name nd) fo e) r ins' = Some (e', o') ->
              sget e' n = Some f).
    { intros fo ins' o' H'. eapply IH; [exact H'|auto| |].
      - intros k Hk. destruct fo; simpl; auto.
        destruct (String.eqb_spec (n_name nd) k); auto. subst. contradiction.
      - destruct fo; simpl; auto. destruct (String.eqb_spec (n_name nd) n); auto.
        subst. rewrite Hf in Hn; auto. discriminate. }
    assert (Hy : forall ins' o', fx_run T W e r ins' = Some (e', o') -> sget e' n = Some f).
    { intros ins' o' H'. eapply (Hx None). exact H'. }
    destruct (n_op nd) eqn:Eop.
    + destruct ins as [|v ins']; [discriminate|]. eapply (Hx (Some (FOne v))). exact H.
    + destruct (node_value T W e nd) as [fo|]; [|discriminate]. eapply (Hx fo). exact H.
    + destruct (node_value T W e nd) as [fo|]; [|discriminate]. eapply (Hx fo). exact H.
    + destruct (mapM (eval_arg T W e None) (out_args nd)); [|discriminate]. cbn [obind] in H.
      destruct (fx_run T W e r ins) as [[e1 o1]|] eqn:E; [|discriminate]. cbn [obind] in H.
      injection H as -> _. eapply Hy; eauto.
    + destruct (node_value T W e nd) as [fo|]; [|discriminate]. eapply (Hx fo). exact H.
Qed.

Lemma extend_fresh : forall pre nd r (e : fenv T) fo,
  NoDup (map n_name (pre ++ nd :: r)) ->
  (forall n f, sget e n = Some f -> In n (map n_name pre)) ->
  (forall n f, sget (extend (n_name nd) fo e) n = Some f -> In n (map n_name (pre ++ [nd]))) /\
  (forall n, In n (map n_name r) -> sget (extend (n_name nd) fo e) n = None) /\
  sget e (n_name nd) = None.
Proof.
  intros pre nd r e fo Hnd Hd. rewrite map_app in Hnd. simpl in Hnd.
  assert (F : forall n, In n (map n_name (nd :: r)) -> sget e n = None).
  { intros n Hn. destruct (sget e n) eqn:E; auto. apply Hd in E.
    exfalso. eapply (proj2 (proj2 (NoDup_app_inv _ _ _ Hnd))); eauto. }
  split; [|split].
  - intros n f. rewrite map_app, in_app_iff. destruct fo; simpl; eauto.
    destruct (String.eqb_spec (n_name nd) n); eauto.
  - intros n Hn. destruct fo; simpl; [|apply F; simpl; auto].
    destruct (String.eqb_spec (n_name nd) n).
    + subst. apply NoDup_remove_2 in Hnd. exfalso. apply Hnd. apply in_or_app. auto.
    + apply F. simpl. auto.
  - apply F. simpl. auto.
Qed.

Lemma import_nodes_sim : forall N ns pre skip e s m args inputs ret s' outs,
  g = pre ++ ns -> wf N s -> Forall (vok s) args -> sim e s m ->
  (forall n f, sget e n = Some f -> In n (map n_name pre)) ->
  (forall n, In n (s_multi s) -> In n (map n_name pre)) ->
  (skip = true -> placeholders ns = []) ->
  Forall2 (fun v x => eg m (vid v) = Some x) args inputs ->
  mapM n_ty (placeholders ns) = Some (map vty args) ->
  fx_run T W e ns inputs = Some (efin, outs) ->
  import_nodes attr_of scal registry g skip ns args s = Some (ret, s') ->
  exists m', sim efin s' m' /\ ext m m' /\
    (skip = false -> match ret, outs with
      | None, None => True
      | Some vs, Some xs => Forall2 (holds m') vs xs
      | _, _ => False
      end).
Proof.
  intros N. induction ns as [|nd r IH];
    intros pre skip e s m args inputs ret s' outs Hg Hw Hok Hs Hd Hm Hsk Ha Ht Hx Hi.
  - simpl in Hx, Hi. injection Hx as <- <-. injection Hi as <- <-. exists m. split; auto.
    split; auto using ext_refl.
  - cbn [import_nodes] in Hi.
    match type of Hi with obind ?c _ = _ => destruct c as [[[args1 ret1] s1]|] eqn:E1; [|discriminate] end.
    cbn [obind] in Hi.
    match type of Hi with obind ?c _ = _ => destruct c as [[ret2 s2]|] eqn:E2; [|discriminate] end.
    cbn [obind] in Hi. injection Hi as <- <-.
    assert (Hin : In nd g) by (rewrite Hg; apply in_or_app; simpl; auto).
    assert (Hg' : g = (pre ++ [nd]) ++ r) by (rewrite <- app_assoc; exact Hg).
    assert (Hnd : NoDup (map n_name (pre ++ nd :: r))) by (rewrite <- Hg; exact Hnames).
    assert (Hndr : NoDup (map n_name r)).
    { rewrite map_app in Hnd. apply NoDup_app_inv in Hnd. destruct Hnd as (_ & Hnd & _). simpl in Hnd. now inversion Hnd. }
    destruct (import_node_wf _ _ _ _ _ _ _ _ _ _ _ _ Hw Hok E1) as ((W1 & _ & _ & M1) & V1 & _).
    assert (M1' : forall n, In n (s_multi s1) -> In n (map n_name (pre ++ [nd]))).
    { intros n Hn. rewrite map_app, in_app_iff. simpl. apply M1 in Hn. destruct Hn; auto. }
    assert (Hnm : ~ In (n_name nd) (s_multi s)).
    { intros Hc. apply Hm in Hc. rewrite map_app in Hnd. simpl in Hnd.
      eapply (proj2 (proj2 (NoDup_app_inv _ _ _ Hnd))); eauto. simpl; auto. }
    destruct (extend_fresh _ _ _ e None Hnd Hd) as (_ & _ & Hfresh).
    (* common continuation *)
    assert (K : forall fo m1 ins1 outs1,
        sim (extend (n_name nd) fo e) s1 m1 -> ext m m1 ->
        Forall2 (fun v x => eg m1 (vid v) = Some x) args1 ins1 ->
        mapM n_ty (placeholders r) = Some (map vty args1) ->
        fx_run T W (extend (n_name nd) fo e) r ins1 = Some (efin, outs1) ->
        exists m', sim efin s2 m' /\ ext m m' /\ ext m1 m' /\
          (skip = false -> match ret2, outs1 with
            | None, None => True | Some vs, Some xs => Forall2 (holds m') vs xs
            | _, _ => False end)).
    { intros fo m1 ins1 outs1 S1 X1 A1 T1 R1.
      destruct (extend_fresh _ _ _ e fo Hnd Hd) as (D1 & _ & _).
      destruct (IH (pre ++ [nd]) skip _ s1 m1 args1 ins1 ret2 s2 outs1 Hg' W1 V1 S1 D1 M1')
        as (m2 & S2 & X2 & C2); auto.
      - intros Hk. specialize (Hsk Hk). unfold placeholders in *. simpl in Hsk.
        destruct (n_op nd); auto. discriminate.
      - exists m2. split; auto. split; auto. eapply ext_trans; eauto. }
    assert (Sub : forall fo ins1 outs1,
        fx_run T W (extend (n_name nd) fo e) r ins1 = Some (efin, outs1) ->
        forall f, fo = Some f -> sget efin (n_name nd) = Some f).
    { intros fo ins1 outs1 R1 f ->. destruct (extend_fresh _ _ _ e (Some f) Hnd Hd) as (_ & D2 & _).
      eapply fx_run_sub; [exact R1|auto|auto|]. simpl. now rewrite String.eqb_refl. }
    assert (Fin : forall m1 ins1 outs1 fo, ret1 = None ->
        sim (extend (n_name nd) fo e) s1 m1 -> ext m m1 -> args1 = args -> ins1 = inputs ->
        n_op nd <> Placeholder -> outs1 = outs ->
        fx_run T W (extend (n_name nd) fo e) r ins1 = Some (efin, outs1) ->
        exists m', sim efin s2 m' /\ ext m m' /\
          (skip = false -> match (match ret2 with Some _ => ret2 | None => ret1 end), outs with
            | None, None => True | Some vs, Some xs => Forall2 (holds m') vs xs
            | _, _ => False end)).
    { intros m1 ins1 outs1 fo -> S1 X1 -> -> Hp -> R1.
      destruct (K fo m1 inputs outs S1 X1) as (m2 & S2 & X2 & _ & C2); auto.
      - eapply Forall2_imp; [|exact Ha]. intros v x Hv. now apply X1.
      - unfold placeholders in *. simpl in Ht. destruct (n_op nd); auto. congruence.
      - exists m2. split; auto. split; auto. destruct ret2; auto. }
    assert (Hcall : forall args' kw sch rs fo sA, used_schema registry g sch -> (forall o, n_op nd <> GetAttr o) ->
        n_op nd <> Placeholder ->
        ret1 = None -> args1 = args -> s1 = sA ->
        import_call attr_of scal registry nd args' kw sch s = Some sA ->
        eval_call T W e sch args' kw = Some rs -> one_or_many T (s_returns sch) rs = Some fo ->
        (forall sch', pick_schema scal registry sch args' = Some sch' ->
           ~ scalar_operand g sch' args' kw) ->
        fx_run T W (extend (n_name nd) fo e) r inputs = Some (efin, outs) ->
        exists m', sim efin s2 m' /\ ext m m' /\
          (skip = false -> match (match ret2 with Some _ => ret2 | None => ret1 end), outs with
            | None, None => True | Some vs, Some xs => Forall2 (holds m') vs xs
            | _, _ => False end)).
    { intros args' kw sch rs fo sA Hu Ho1 Ho2 Hr1 Ha1 Hs1 Hc He Hone Hsc R1. subst sA.
      destruct (import_call_sim N e s m nd args' kw sch s1 rs fo) as (m1 & S1 & X1); auto.
      - eapply Sub; eauto.
      - eapply (Fin m1 inputs outs fo); eauto. }
    destruct (Htens nd Hin) as (TO1 & TO2 & TO3).
    unfold import_node in E1. simpl in Hx. unfold node_value in Hx.
    destruct (n_op nd) as [|obj|[]| |] eqn:Eop.
    + (* placeholder *)
      destruct skip.
      { specialize (Hsk eq_refl). unfold placeholders in Hsk. simpl in Hsk. rewrite Eop in Hsk.
        discriminate. }
      destruct args as [|v ar]; [discriminate|].
      destruct (bind (n_name nd) 0 (BVal v) s) as [sb|] eqn:Eb; [|discriminate].
      cbn [obind] in E1. injection E1 as -> <- ->.
      inversion Ha as [|? x ? ins Hv Har]; subst.
      assert (Hef := Sub (Some (FOne x)) _ _ Hx _ eq_refl).
      unfold placeholders in Ht. simpl in Ht. rewrite Eop in Ht. simpl in Ht.
      destruct (n_ty nd) as [t|] eqn:En; [|discriminate]. cbn [obind] in Ht.
      match type of Ht with obind ?c _ = _ => destruct c as [ts|] eqn:Ets; [|discriminate] end.
      cbn [obind] in Ht. injection Ht as -> ->.
      assert (S0 : sim ((n_name nd, FOne x) :: e) s m).
      { apply extend_sim; auto; try discriminate; [contradiction|]. congruence. }
      destruct (bind_sim _ _ _ _ _ _ _ x S0 Eb) as (m1 & S1 & X1).
      { unfold fvget. simpl. now rewrite String.eqb_refl. }
      { split; auto. destruct (Hmeta _ _ Hin Hef) as (H1 & _). auto. }
      destruct (K (Some (FOne x)) m1 ins outs S1 X1) as (m2 & S2 & X2 & _ & C2); auto.
      { eapply Forall2_imp; [|exact Har]. intros w y Hy. now apply X1. }
      exists m2. split; auto. split; auto. destruct ret2; auto.
    + (* get_attr *)
      injection E1 as <- <- <-. destruct obj as [l|].
      * destruct (lit_val T W l) as [x|] eqn:El; [|discriminate]. cbn [option_map obind] in Hx.
        assert (Hef := Sub (Some (FOne x)) _ _ Hx _ eq_refl).
        apply (Fin m inputs outs (Some (FOne x))); auto using ext_refl; try discriminate.
        apply extend_sim; auto; try discriminate; [contradiction|].
        intros l0 Hl0. rewrite Eop in Hl0. injection Hl0 as <-. rewrite El. reflexivity.
      * cbn [obind] in Hx.
        apply (Fin m inputs outs None); auto using ext_refl; discriminate.
    + (* getitem *)
      match type of E1 with obind ?c _ = _ => destruct c as [sb|] eqn:Eg; [|discriminate] end.
      cbn [obind] in E1. injection E1 as <- <- <-.
      match type of Hx with obind ?c _ = _ => destruct c as [fo|] eqn:Ev; [|discriminate] end.
      cbn [obind] in Hx.
      assert (Hfo : exists x, fo = Some (FOne x)).
      { clear - Ev. destruct (n_args nd) as [|[rn| | |] [|[|[| |i| | | | |]| |] [|]]]; try discriminate.
        destruct (sget e rn) as [[[| | | | | | |l]|l]|]; try discriminate.
        - destruct (pyidx l i); [|discriminate]. injection Ev as <-. eauto.
        - destruct (pyidx l i) as [[y|]|]; try discriminate. injection Ev as <-. eauto. }
      destruct Hfo as [x ->].
      destruct (import_getitem_sim e s m nd sb x) as (m1 & S1 & X1); auto.
      { unfold node_value. now rewrite Eop. }
      { apply (Sub (Some (FOne x)) inputs outs); auto. }
      apply (Fin m1 inputs outs (Some (FOne x))); auto. discriminate.
    + (* overload *)
      destruct (canonicalize registry nd s0) as [[[[a kw] sch']|]|] eqn:Ec; [| |discriminate];
        cbn [obind] in E1.
      * match type of E1 with obind ?c _ = _ => destruct c as [sb|] eqn:Eb; [|discriminate] end.
        cbn [obind] in E1. injection E1 as <- <- <-.
        destruct (eval_call T W e s0 (n_args nd) (n_kwargs nd)) as [rs|] eqn:Ee; [|discriminate].
        cbn [obind] in Hx.
        destruct (one_or_many T (s_returns s0) rs) as [fo|] eqn:Eo; [|discriminate].
        cbn [obind] in Hx.
        destruct (Hcanon _ _ _ _ _ _ _ Hin Eop Ec Ee) as [He' Hr'].
        rewrite <- Hr' in Eo.
        eapply (Hcall a kw sch' rs fo sb); eauto; try discriminate. exists nd. eauto 9.
      * injection E1 as <- <- <-.
        pose proof (Hdrop _ _ Hin Eop Ec) as Hr0.
        destruct (eval_call T W e s0 (n_args nd) (n_kwargs nd)) as [rs|] eqn:Ee; [|discriminate].
        cbn [obind] in Hx. rewrite Hr0 in Hx. simpl in Hx. destruct rs; [|discriminate].
        cbn [obind] in Hx.
        apply (Fin m inputs outs None); auto using ext_refl; discriminate.
    + match type of E1 with obind ?c _ = _ => destruct c as [sb|] eqn:Eb; [|discriminate] end.
      cbn [obind] in E1. injection E1 as <- <- <-.
      destruct (eval_call T W e s0 (n_args nd) (n_kwargs nd)) as [rs|] eqn:Ee; [|discriminate].
      cbn [obind] in Hx.
      destruct (one_or_many T (s_returns s0) rs) as [fo|] eqn:Eo; [|discriminate].
      cbn [obind] in Hx.
      eapply (Hcall _ _ s0 rs fo sb); eauto; try discriminate. exists nd. eauto.
    + match type of E1 with obind ?c _ = _ => destruct c as [sb|] eqn:Eb; [|discriminate] end.
      cbn [obind] in E1. injection E1 as <- <- <-.
      destruct (eval_call T W e s0 [] (n_kwargs nd)) as [rs|] eqn:Ee; [|discriminate].
      cbn [obind] in Hx.
      destruct (import_auto_sim e s m nd s0 sb rs Hs Hin Hfresh) as (m1 & S1 & X1); auto.
      { rewrite Eop. discriminate. }
      { eapply (Sub (Some _)); eauto. }
      eapply (Fin m1 inputs outs (Some _)); eauto. discriminate.
    + discriminate.
    + (* output *)
      destruct (mapM (eval_arg T W e None) (out_args nd)) as [xs|] eqn:Ex; [|discriminate].
      cbn [obind] in Hx.
      destruct (fx_run T W e r inputs) as [[e1 o1]|] eqn:Er; [|discriminate]. cbn [obind] in Hx.
      injection Hx as -> <-.
      assert (Ht' : mapM n_ty (placeholders r) = Some (map vty args)).
      { unfold placeholders in *. simpl in Ht. rewrite Eop in Ht. exact Ht. }
      destruct skip.
      * injection E1 as <- <- <-.
        destruct (K None m inputs o1 Hs (ext_refl m) Ha Ht' Er) as (m2 & S2 & X2 & _ & C2).
        exists m2. split; auto. split; auto. discriminate.
      * destruct (nth_error (n_args nd) 0) as [a|] eqn:En; [|discriminate]. cbn [obind] in E1.
        match type of E1 with obind ?c _ = _ => destruct c as [[vs sb]|] eqn:Eb; [|discriminate] end.
        cbn [obind] in E1. injection E1 as <- <- <-.
        assert (Ho : match a with AList l | ATuple l => l | b => [b] end = out_args nd).
        { unfold out_args. destruct (n_args nd) as [|b]; [discriminate|].
          simpl in En. injection En as ->. now destruct a. }
        rewrite Ho in Eb.
        destruct (import_outs_sim _ _ _ _ _ _ _ Hs Eb Ex) as (m1 & S1 & X1 & C1).
        destruct (K None m1 inputs o1 S1 X1) as (m2 & S2 & X2 & X12 & C2); auto.
        { eapply Forall2_imp; [|exact Ha]. intros v x Hv. now apply X1. }
        exists m2. split; auto. split; auto. intros Hk. specialize (C2 Hk).
        destruct ret2, o1; auto; try contradiction.
        eapply Forall2_imp; [|exact C1]. intros; eapply holds_ext; eauto.
    + cbn [obind] in Hx. injection E1 as <- <- <-.
      apply (Fin m inputs outs None); auto using ext_refl; discriminate.
Qed.

End Sim.
