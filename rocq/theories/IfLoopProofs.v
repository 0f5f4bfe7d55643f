(** Lemmas on structured programs. *)
From Coq Require Import Bool PeanoNat ZArith Lia List.
From Verif Require Import Prelude IfLoopModel IfLoopSpec.
Import ListNotations.
Open Scope nat_scope.

Lemma in_list_true v l : in_list v l = true <-> In v l.
Proof. unfold in_list. rewrite existsb_exists. split; [intros (x & H & E); apply Nat.eqb_eq in E; subst; exact H|intros H; exists v; split; [exact H|apply Nat.eqb_refl]]. Qed.
Lemma in_list_false v l : in_list v l = false <-> ~ In v l.
Proof. rewrite <- in_list_true. destruct (in_list v l); split; intros H; try discriminate; try reflexivity. exfalso. apply H. reflexivity. Qed.
Scheme stmt_mut := Induction for stmt Sort Prop with stmts_mut := Induction for stmts Sort Prop.
Combined Scheme stmt_both from stmt_mut, stmts_mut.

Section Sim.
Context {D state : Type} (computes : nat -> list (val D) -> state -> option (list (val D) * state)).
Lemma upd_eq (e : env D) k x : upd e k x k = Some x.
Proof. unfold upd. rewrite Nat.eqb_refl. reflexivity. Qed.
Lemma upd_neq (e : env D) k x i : i <> k -> upd e k x i = e i.
Proof. intros N. unfold upd. destruct (Nat.eqb_spec i k); [contradiction|reflexivity]. Qed.
Section Loop.
Context (e : env D) (params : list nat) (body : stmts) (cond : nat) (yields : list nat).
Fixpoint loop (more : nat) (i : Z) (b : bool) (xs : list (val D)) (st : state) : option (list (val D) * state) :=
  match more with
  | 0 => Some (xs, st)
  | S more =>
      if b then
        do e1 <- binds params (VZ i :: xs) e ; do (e2, st1) <- run computes body e1 st ; do b' <- bool_at e2 cond ; do ys <- mapM e2 yields ;
        loop more (i + 1)%Z b' ys st1
      else Some (xs, st)
  end.
End Loop.
Lemma run_loop trip init inits params body cond yields rs e st : run_s computes (Loop trip init inits params body cond yields rs) e st =
  (do z <- int_at e trip ; do b <- bool_at e init ; do xs <- mapM e inits ; do (ys, st1) <- loop e params body cond yields (Z.to_nat z) 0%Z b xs st ; do e2 <- binds rs ys e ; Some (e2, st1)).
Proof. reflexivity. Qed.
Lemma run_cons s ss e st : run computes (Cons s ss) e st = (do (e1, st1) <- run_s computes s e st ; run computes ss e1 st1).
Proof. reflexivity. Qed.
Lemma run_op rs name args e st : run_s computes (Op rs name args) e st = (do xs <- mapM e args ; do (ys, st1) <- computes name xs st ; do e1 <- binds rs ys e ; Some (e1, st1)).
Proof. reflexivity. Qed.
Lemma run_if c t ty f fy rs e st : run_s computes (If c t ty f fy rs) e st =
  (do b <- bool_at e c ; if b : bool then do (e1, st1) <- run computes t e st ; do ys <- mapM e1 ty ; do e2 <- binds rs ys e ; Some (e2, st1) else do (e1, st1) <- run computes f e st ; do ys <- mapM e1 fy ; do e2 <- binds rs ys e ; Some (e2, st1)).
Proof. reflexivity. Qed.
Lemma run_sapp : forall a b e st, run computes (sapp a b) e st = (do (e1, st1) <- run computes a e st ; run computes b e1 st1).
Proof. induction a as [|s a IH]; intros b e st; cbn [sapp]; [reflexivity|]. rewrite !run_cons. destruct (run_s computes s e st) as [[e1 st1]|]; [|reflexivity]. cbn [obind]. apply IH. Qed.
Lemma binds_frame : forall rs xs (e e1 : env D) v, binds rs xs e = Some e1 -> ~ In v rs -> e1 v = e v.
Proof.
  induction rs as [|r rs IH]; intros [|x xs] e e1 v; cbn [binds]; try discriminate; [intros [= <-] _; reflexivity|]. intros H N. rewrite (IH _ _ _ _ H); [|intros Z; apply N; right; exact Z]. apply upd_neq. intros ->. apply N. left. reflexivity.
Qed.
Lemma binds_get : forall rs xs (e e1 : env D), binds rs xs e = Some e1 -> NoDup rs -> mapM e1 rs = Some xs.
Proof.
  induction rs as [|r rs IH]; intros [|x xs] e e1; cbn [binds mapM]; try discriminate; [reflexivity|]. intros H ND. inversion ND as [|? ? N1 N2]; subst. rewrite (binds_frame _ _ _ _ _ H N1), upd_eq. cbn [obind]. rewrite (IH _ _ _ H N2). reflexivity.
Qed.
Lemma run_frame : (forall s e st e1 st1 v, run_s computes s e st = Some (e1, st1) -> ~ In v (binders_s s) -> e1 v = e v) /\ (forall ss e st e1 st1 v, run computes ss e st = Some (e1, st1) -> ~ In v (binders ss) -> e1 v = e v).
Proof.
  apply stmt_both.
  - intros rs name args e st e1 st1 v H N. rewrite run_op in H. cbn [binders_s] in *. destruct (mapM e args); [|discriminate]. cbn [obind] in H. destruct (computes name l st) as [[ys st2]|]; [|discriminate]. cbn [obind] in H. destruct (binds rs ys e) as [e2|] eqn:B; [|discriminate]. cbn in H. injection H as <- _. exact (binds_frame _ _ _ _ _ B N).
  - intros r b e st e1 st1 v [= <- _] N. apply upd_neq. intros ->. apply N. left. reflexivity.
  - intros r z e st e1 st1 v [= <- _] N. apply upd_neq. intros ->. apply N. left. reflexivity.
  - intros c t _ ty f _ fy rs e st e1 st1 v H N. rewrite run_if in H. cbn [binders_s] in *. assert (Nr : ~ In v rs) by (intros Z; apply N; apply in_or_app; right; apply in_or_app; right; exact Z). destruct (bool_at e c) as [b|]; [|discriminate]. cbn [obind] in H.
    destruct b; [destruct (run computes t e st) as [[e2 st2]|]; [|discriminate]; cbn [obind] in H; destruct (mapM e2 ty) as [ys|]; [|discriminate]|destruct (run computes f e st) as [[e2 st2]|]; [|discriminate]; cbn [obind] in H; destruct (mapM e2 fy) as [ys|]; [|discriminate]]; cbn [obind] in H; destruct (binds rs ys e) as [e3|] eqn:B; try discriminate; cbn in H; injection H as <- _; exact (binds_frame _ _ _ _ _ B Nr).
  - intros trip init inits ps body _ cond ys rs e st e1 st1 v H N. rewrite run_loop in H. cbn [binders_s] in N. assert (Nr : ~ In v rs) by (intros Z; apply N; apply in_or_app; right; apply in_or_app; right; exact Z).
    destruct (int_at e trip); [|discriminate]. cbn [obind] in H. destruct (bool_at e init); [|discriminate]. cbn [obind] in H. destruct (mapM e inits); [|discriminate]. cbn [obind] in H. destruct (loop e ps body cond ys _ _ _ _ _) as [[xs st2]|]; [|discriminate]. cbn [obind] in H. destruct (binds rs xs e) as [e3|] eqn:B; [|discriminate]. cbn in H. injection H as <- _. exact (binds_frame _ _ _ _ _ B Nr).
  - intros e st e1 st1 v [= <- _] _. reflexivity.
  - intros s IHs ss IHss e st e1 st1 v H N. rewrite run_cons in H. cbn [binders] in *. destruct (run_s computes s e st) as [[e2 st2]|] eqn:R; [|discriminate]. cbn [obind] in H. rewrite (IHss _ _ _ _ v H), (IHs _ _ _ _ v R); [reflexivity| |]; intros Z; apply N; apply in_or_app; [left|right]; exact Z.
Qed.
(** ** Renamed programs *)
Context (g : nat -> nat) (V : nat -> Prop).
Definition separate (r : nat) : Prop := forall v, V v -> v <> r -> g v <> g r.
Definition rel (e e' : env D) : Prop := forall v x, V v -> e v = Some x -> e' (g v) = Some x.
Lemma rel_upd e e' r x : rel e e' -> separate r -> rel (upd e r x) (upd e' (g r) x).
Proof.
  intros R Sp v y Vv H. destruct (Nat.eq_dec v r) as [->|N]; [rewrite upd_eq in *; exact H|]. rewrite upd_neq in H by exact N. rewrite upd_neq by (apply Sp; assumption). exact (R v y Vv H).
Qed.
Lemma rel_binds : forall rs xs e e' e1, rel e e' -> (forall r, In r rs -> separate r) -> binds rs xs e = Some e1 -> exists e1', binds (map g rs) xs e' = Some e1' /\ rel e1 e1'.
Proof.
  induction rs as [|r rs IH]; intros [|x xs] e e' e1 R Sp H; cbn [binds map] in *; try discriminate; [injection H as <-; exists e'; split; [reflexivity|exact R]|].
  apply (IH xs (upd e r x) (upd e' (g r) x) e1); [apply rel_upd; [exact R|apply Sp; left; reflexivity]|intros r' I1; apply Sp; right; exact I1|exact H].
Qed.
Lemma rel_mapM e e' : forall vs xs, rel e e' -> (forall v, In v vs -> V v) -> mapM e vs = Some xs -> mapM e' (map g vs) = Some xs.
Proof.
  induction vs as [|v vs IH]; intros xs R Hv H; [exact H|]. cbn [mapM map] in *. destruct (e v) as [x|] eqn:Ev; [|discriminate]. cbn [obind] in H. destruct (mapM e vs) as [ys|] eqn:Em; [|discriminate]. rewrite (R v x (Hv v (or_introl eq_refl)) Ev). cbn [obind]. rewrite (IH ys R); [exact H| |reflexivity]. intros w I1. apply Hv. right. exact I1.
Qed.
Lemma rel_bool e e' v b : rel e e' -> V v -> bool_at e v = Some b -> bool_at e' (g v) = Some b.
Proof. unfold bool_at. intros R Vv. destruct (e v) as [x|] eqn:E; [|discriminate]. rewrite (R v x Vv E). trivial. Qed.
Lemma rel_int e e' v b : rel e e' -> V v -> int_at e v = Some b -> int_at e' (g v) = Some b.
Proof. unfold int_at. intros R Vv. destruct (e v) as [x|] eqn:E; [|discriminate]. rewrite (R v x Vv E). trivial. Qed.
Lemma run_subst :
  (forall s e e' st e1 st1, (forall r, In r (binders_s s) -> separate r) -> (forall v, In v (uses_s s) -> V v) -> rel e e' -> run_s computes s e st = Some (e1, st1) -> exists e1', run_s computes (subst_s g s) e' st = Some (e1', st1) /\ rel e1 e1') /\
  (forall ss e e' st e1 st1, (forall r, In r (binders ss) -> separate r) -> (forall v, In v (uses ss) -> V v) -> rel e e' -> run computes ss e st = Some (e1, st1) -> exists e1', run computes (subst g ss) e' st = Some (e1', st1) /\ rel e1 e1').
Proof.
  apply stmt_both.
  - intros rs name args e e' st e1 st1 Sp Us R H. cbn [subst_s binders_s uses_s] in *. rewrite run_op in H |- *. destruct (mapM e args) as [xs|] eqn:Mx; [|discriminate]. rewrite (rel_mapM _ _ _ _ R Us Mx). cbn [obind] in *. destruct (computes name xs st) as [[ys st2]|]; [|discriminate]. cbn [obind] in *.
    destruct (binds rs ys e) as [e2|] eqn:B; [|discriminate]. cbn in H. injection H as <- <-. destruct (rel_binds _ _ _ _ _ R Sp B) as (e2' & B' & R'). rewrite B'. exists e2'. split; [reflexivity|exact R'].
  - intros r b e e' st e1 st1 Sp Us R [= <- <-]. exists (upd e' (g r) (VB b)). split; [reflexivity|]. apply rel_upd; [exact R|apply Sp; left; reflexivity].
  - intros r z e e' st e1 st1 Sp Us R [= <- <-]. exists (upd e' (g r) (VZ z)). split; [reflexivity|]. apply rel_upd; [exact R|apply Sp; left; reflexivity].
  - intros c t IHt ty f IHf fy rs e e' st e1 st1 Sp Us R H. change (subst_s g (If c t ty f fy rs)) with (If (g c) (subst g t) (map g ty) (subst g f) (map g fy) (map g rs)). rewrite run_if in H |- *. destruct (bool_at e c) as [b|] eqn:Eb; [|discriminate]. rewrite (rel_bool _ _ _ _ R (Us c (or_introl eq_refl)) Eb). cbn [obind] in *.
    assert (Sr : forall r, In r rs -> separate r) by (intros r Ir; apply Sp; apply in_or_app; right; apply in_or_app; right; exact Ir).
    destruct b.
    + destruct (run computes t e st) as [[e2 st2]|] eqn:Rt; [|discriminate]. cbn [obind] in H. destruct (IHt e e' st e2 st2 ltac:(intros r Ir; apply Sp; apply in_or_app; left; exact Ir) ltac:(intros v Iv; apply Us; right; apply in_or_app; left; exact Iv) R Rt) as (e2' & R2 & Rl2). rewrite R2. cbn [obind].
      destruct (mapM e2 ty) as [ys|] eqn:My; [|discriminate]. rewrite (rel_mapM _ _ _ _ Rl2 ltac:(intros v Iv; apply Us; right; apply in_or_app; right; apply in_or_app; left; exact Iv) My). cbn [obind] in *.
      destruct (binds rs ys e) as [e3|] eqn:B; [|discriminate]. cbn in H. injection H as <- <-. destruct (rel_binds _ _ _ _ _ R Sr B) as (e3' & B' & R'). rewrite B'. exists e3'. split; [reflexivity|exact R'].
    + destruct (run computes f e st) as [[e2 st2]|] eqn:Rt; [|discriminate]. cbn [obind] in H. destruct (IHf e e' st e2 st2 ltac:(intros r Ir; apply Sp; apply in_or_app; right; apply in_or_app; left; exact Ir) ltac:(intros v Iv; apply Us; right; apply in_or_app; right; apply in_or_app; right; apply in_or_app; left; exact Iv) R Rt) as (e2' & R2 & Rl2). rewrite R2. cbn [obind].
      destruct (mapM e2 fy) as [ys|] eqn:My; [|discriminate]. rewrite (rel_mapM _ _ _ _ Rl2 ltac:(intros v Iv; apply Us; right; apply in_or_app; right; apply in_or_app; right; apply in_or_app; right; exact Iv) My). cbn [obind] in *.
      destruct (binds rs ys e) as [e3|] eqn:B; [|discriminate]. cbn in H. injection H as <- <-. destruct (rel_binds _ _ _ _ _ R Sr B) as (e3' & B' & R'). rewrite B'. exists e3'. split; [reflexivity|exact R'].
  - intros trip init inits ps body IHb cond ys rs e e' st e1 st1 Sp Us R H. change (subst_s g (Loop trip init inits ps body cond ys rs)) with (Loop (g trip) (g init) (map g inits) (map g ps) (subst g body) (g cond) (map g ys) (map g rs)). rewrite run_loop in H |- *.
    destruct (int_at e trip) as [z|] eqn:Ez; [|discriminate]. rewrite (rel_int _ _ _ _ R (Us trip (or_introl eq_refl)) Ez). cbn [obind] in *. destruct (bool_at e init) as [b|] eqn:Eb; [|discriminate]. rewrite (rel_bool _ _ _ _ R (Us init (or_intror (or_introl eq_refl))) Eb). cbn [obind] in *.
    destruct (mapM e inits) as [xs|] eqn:Mx; [|discriminate]. rewrite (rel_mapM _ _ _ _ R ltac:(intros v Iv; apply Us; right; right; apply in_or_app; left; exact Iv) Mx). cbn [obind] in *.
    assert (L : forall k i b xs st r, loop e ps body cond ys k i b xs st = Some r -> loop e' (map g ps) (subst g body) (g cond) (map g ys) k i b xs st = Some r).
    { induction k as [|k IH]; intros i b0 xs0 st0 r Hl; cbn [loop] in *; [exact Hl|]. destruct b0; [|exact Hl]. destruct (binds ps (VZ i :: xs0) e) as [e2|] eqn:B; [|discriminate]. destruct (rel_binds _ _ _ _ _ R ltac:(intros r0 Ir; apply Sp; apply in_or_app; left; exact Ir) B) as (e2' & B' & R'). rewrite B'. cbn [obind] in *.
      destruct (run computes body e2 st0) as [[e3 st3]|] eqn:Rb; [|discriminate]. destruct (IHb e2 e2' st0 e3 st3 ltac:(intros r0 Ir; apply Sp; apply in_or_app; right; apply in_or_app; left; exact Ir) ltac:(intros v Iv; apply Us; right; right; apply in_or_app; right; apply in_or_app; left; exact Iv) R' Rb) as (e3' & R3 & Rl3). rewrite R3. cbn [obind] in *.
      destruct (bool_at e3 cond) as [b1|] eqn:Ec; [|discriminate]. rewrite (rel_bool _ _ _ _ Rl3 ltac:(apply Us; right; right; apply in_or_app; right; apply in_or_app; right; left; reflexivity) Ec). cbn [obind] in *.
      destruct (mapM e3 ys) as [zs|] eqn:My; [|discriminate]. rewrite (rel_mapM _ _ _ _ Rl3 ltac:(intros v Iv; apply Us; right; right; apply in_or_app; right; apply in_or_app; right; right; exact Iv) My). cbn [obind] in *. apply IH. exact Hl. }
    destruct (loop e ps body cond ys (Z.to_nat z) 0%Z b xs st) as [[zs st2]|] eqn:El; [|discriminate]. rewrite (L _ _ _ _ _ _ El). cbn [obind] in *. destruct (binds rs zs e) as [e3|] eqn:B; [|discriminate]. cbn in H. injection H as <- <-.
    destruct (rel_binds _ _ _ _ _ R ltac:(intros r Ir; apply Sp; apply in_or_app; right; apply in_or_app; right; exact Ir) B) as (e3' & B' & R'). rewrite B'. exists e3'. split; [reflexivity|exact R'].
  - intros e e' st e1 st1 _ _ R [= <- <-]. exists e'. split; [reflexivity|exact R].
  - intros s IHs ss IHss e e' st e1 st1 Sp Us R H. change (subst g (Cons s ss)) with (Cons (subst_s g s) (subst g ss)). rewrite run_cons in H |- *. destruct (run_s computes s e st) as [[e2 st2]|] eqn:Rs; [|discriminate]. cbn [obind] in H.
    destruct (IHs e e' st e2 st2 ltac:(intros r Ir; apply Sp; apply in_or_app; left; exact Ir) ltac:(intros v Iv; apply Us; apply in_or_app; left; exact Iv) R Rs) as (e2' & R2 & Rl2). rewrite R2. cbn [obind].
    exact (IHss e2 e2' st2 e1 st1 ltac:(intros r Ir; apply Sp; apply in_or_app; right; exact Ir) ltac:(intros v Iv; apply Us; apply in_or_app; right; exact Iv) Rl2 H).
Qed.
End Sim.

(** ** Replacements *)
Lemma replace_out : forall rs vs v, ~ In v rs -> replace rs vs v = v.
Proof. induction rs as [|r rs IH]; intros [|w vs] v N; cbn [replace]; try reflexivity. destruct (Nat.eqb_spec v r) as [->|N2]; [exfalso; apply N; left; reflexivity|]. apply IH. intros Z. apply N. right. exact Z. Qed.
Lemma replace_in : forall rs vs v, In v rs -> List.length rs = List.length vs -> In (replace rs vs v) vs.
Proof. induction rs as [|r rs IH]; intros [|w vs] v I1 L; cbn [replace] in *; try discriminate; [destruct I1|]. destruct (Nat.eqb_spec v r) as [->|N]; [left; reflexivity|]. right. apply IH; [destruct I1 as [Z|Z]; [congruence|exact Z]|cbn in L; congruence]. Qed.
Lemma replace_either rs vs v : replace rs vs v = v \/ In (replace rs vs v) vs.
Proof. revert vs. induction rs as [|r rs IH]; intros [|w vs]; cbn [replace]; try (left; reflexivity). destruct (v =? r); [right; left; reflexivity|]. destruct (IH vs) as [Z|Z]; [left; exact Z|right; right; exact Z]. Qed.
Lemma replace_value {D} (e' : env D) : forall rs vs xs (e e1 : env D) v x, binds rs xs e = Some e1 -> NoDup rs -> mapM e' vs = Some xs -> In v rs -> e1 v = Some x -> e' (replace rs vs v) = Some x.
Proof.
  induction rs as [|r rs IH]; intros vs xs e e1 v x B ND M I1 H; [destruct I1|]. destruct xs as [|y xs]; [discriminate|]. destruct vs as [|w vs]; [discriminate|]. cbn [binds mapM replace] in *. destruct (e' w) as [y'|] eqn:Ew; [|discriminate]. cbn [obind] in M. destruct (mapM e' vs) as [ys|] eqn:Em; [|discriminate]. cbn in M. injection M as -> ->. inversion ND as [|? ? N1 N2]; subst.
  destruct (Nat.eqb_spec v r) as [->|N].
  - rewrite (binds_frame _ _ _ _ _ B N1), upd_eq in H. congruence.
  - apply (IH vs xs (upd e r y) e1 v x B N2 Em); [destruct I1 as [Z|Z]; [congruence|exact Z]|exact H].
Qed.
