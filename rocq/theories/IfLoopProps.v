(** C127: the canonicalisations of conditionals and the unrolling of loops keep what a block computes. *)
From Coq Require Import Bool PeanoNat ZArith Lia List.
From Verif Require Import Prelude IfLoopModel IfLoopSpec IfLoopProofs.
Import ListNotations.
Open Scope nat_scope.

Lemma map_fst_agreed : forall rs ty fy, incl (map fst (agreed rs ty fy)) rs.
Proof. induction rs as [|r rs IH]; intros [|t ty] [|f fy] v; cbn [agreed map]; try (intros []). destruct (t =? f); cbn [map In fst snd]; [intros [->|H]; [left; reflexivity|right; exact (IH _ _ _ H)]|intros H; right; exact (IH _ _ _ H)]. Qed.
Lemma snd_agreed : forall rs ty fy v, In v (map snd (agreed rs ty fy)) -> In v ty /\ In v fy.
Proof. induction rs as [|r rs IH]; intros [|t ty] [|f fy] v; cbn [agreed map]; try (intros []). destruct (Nat.eqb_spec t f); cbn [map In fst snd]; [intros [->|H]; [split; left; congruence|destruct (IH _ _ _ H); split; right; assumption]|intros H; destruct (IH _ _ _ H); split; right; assumption]. Qed.
Lemma in_agreed : forall rs ty fy r v, In (r, v) (agreed rs ty fy) <-> exists i, nth_error rs i = Some r /\ nth_error ty i = Some v /\ nth_error fy i = Some v.
Proof.
  induction rs as [|r0 rs IH]; intros [|t ty] [|f fy] r v; cbn [agreed]; try (split; [intros []|intros ([|i] & A1 & A2 & A3); discriminate]).
  transitivity ((r = r0 /\ t = v /\ f = v) \/ In (r, v) (agreed rs ty fy)).
  - destruct (Nat.eqb_spec t f) as [->|N]; cbn [In]; [split; [intros [[= <- <-]|H]; [left; split; [reflexivity|split; reflexivity]|right; exact H]|intros [(-> & -> & _)|H]; [left; reflexivity|right; exact H]]|split; [intros H; right; exact H|intros [(_ & -> & ->)|H]; [congruence|exact H]]].
  - rewrite IH. split.
    + intros [(-> & -> & ->)|(i & H)]; [exists 0; cbn; auto|exists (S i); exact H].
    + intros ([|i] & A1 & A2 & A3); cbn in *; [left; repeat split; congruence|right; exists i; auto].
Qed.
Lemma replace_agreed {D} (e1 e' : env D) : forall rs ty fy xs e e2 v x, binds rs xs e = Some e2 -> NoDup rs -> (mapM e1 ty = Some xs \/ mapM e1 fy = Some xs) -> (forall t y, In t (map snd (agreed rs ty fy)) -> e1 t = Some y -> e' t = Some y) ->
  e2 v = Some x -> In v (map fst (agreed rs ty fy)) -> e' (replace (map fst (agreed rs ty fy)) (map snd (agreed rs ty fy)) v) = Some x.
Proof.
  induction rs as [|r rs IH]; intros [|t ty] [|f fy] xs e e2 v x B ND M K H I1; cbn [agreed map] in *; try (destruct I1; fail). destruct xs as [|y xs]; [discriminate|]. cbn [binds] in B. inversion ND as [|? ? N1 N2]; subst.
  assert (M2 : mapM e1 ty = Some xs \/ mapM e1 fy = Some xs) by (cbn [mapM] in M; destruct M as [M|M]; [left; destruct (e1 t); [|discriminate]; cbn [obind] in M; destruct (mapM e1 ty); [|discriminate]|right; destruct (e1 f); [|discriminate]; cbn [obind] in M; destruct (mapM e1 fy); [|discriminate]]; cbn in M; congruence).
  assert (Mt : e1 t = Some y \/ e1 f = Some y) by (cbn [mapM] in M; destruct M as [M|M]; [left; destruct (e1 t); [|discriminate]; cbn [obind] in M; destruct (mapM e1 ty); [|discriminate]|right; destruct (e1 f); [|discriminate]; cbn [obind] in M; destruct (mapM e1 fy); [|discriminate]]; cbn in M; congruence).
  destruct (Nat.eqb_spec t f) as [->|N]; cbn [map fst snd replace] in *.
  - destruct (Nat.eqb_spec v r) as [->|Nv].
    + rewrite (binds_frame _ _ _ _ _ B N1), upd_eq in H. injection H as <-. apply K; [left; reflexivity|destruct Mt as [Z|Z]; exact Z].
    + apply (IH ty fy xs (upd e r y) e2 v x B N2 M2); [intros t0 y0 I2; apply K; right; exact I2|exact H|destruct I1 as [Z|Z]; [congruence|exact Z]].
  - apply (IH ty fy xs (upd e r y) e2 v x B N2 M2 K H I1).
Qed.
Lemma mapM_some_in {A B} (f : A -> option B) : forall l ys, mapM f l = Some ys -> forall a, In a l -> f a <> None.
Proof. induction l as [|a l IH]; intros ys H b I1; [destruct I1|]. cbn [mapM] in H. destruct (f a) eqn:Ef; [|discriminate]. cbn [obind] in H. destruct (mapM f l) as [zs|] eqn:Em; [|discriminate]. destruct I1 as [<-|I1]; [congruence|exact (IH zs eq_refl b I1)]. Qed.
Lemma subst_id : (forall s, subst_s (fun v => v) s = s) /\ (forall ss, subst (fun v => v) ss = ss).
Proof.
  apply stmt_both; intros; [cbn; rewrite !map_id; reflexivity|reflexivity|reflexivity| | |reflexivity|].
  - change (subst_s (fun v => v) (If c t ty f fy rs)) with (If c (subst (fun v => v) t) (map (fun v => v) ty) (subst (fun v => v) f) (map (fun v => v) fy) (map (fun v => v) rs)). rewrite H, H0, !map_id. reflexivity.
  - change (subst_s (fun v => v) (Loop trip init inits params body cond yields rs)) with (Loop trip init (map (fun v => v) inits) (map (fun v => v) params) (subst (fun v => v) body) cond (map (fun v => v) yields) (map (fun v => v) rs)). rewrite H, !map_id. reflexivity.
  - change (subst (fun v => v) (Cons s ss)) with (Cons (subst_s (fun v => v) s) (subst (fun v => v) ss)). rewrite H, H0. reflexivity.
Qed.
Lemma binders_subst g : (forall s, binders_s (subst_s g s) = map g (binders_s s)) /\ (forall ss, binders (subst g ss) = map g (binders ss)).
Proof.
  apply stmt_both; intros; try reflexivity.
  - change (binders (subst g t) ++ binders (subst g f) ++ map g rs = map g (binders t ++ binders f ++ rs)). rewrite H, H0, !map_app. reflexivity.
  - change (map g params ++ binders (subst g body) ++ map g rs = map g (params ++ binders body ++ rs)). rewrite H, !map_app. reflexivity.
  - change (binders_s (subst_s g s) ++ binders (subst g ss) = map g (binders_s s ++ binders ss)). rewrite H, H0, map_app. reflexivity.
Qed.
Lemma uses_subst g : (forall s, uses_s (subst_s g s) = map g (uses_s s)) /\ (forall ss, uses (subst g ss) = map g (uses ss)).
Proof.
  apply stmt_both; intros; try reflexivity.
  - change (g c :: uses (subst g t) ++ map g ty ++ uses (subst g f) ++ map g fy = map g (c :: uses t ++ ty ++ uses f ++ fy)). rewrite H, H0. cbn [map]. rewrite !map_app. reflexivity.
  - change (g trip :: g init :: map g inits ++ uses (subst g body) ++ g cond :: map g yields = map g (trip :: init :: inits ++ uses body ++ cond :: yields)). rewrite H. cbn [map]. rewrite !map_app. reflexivity.
  - change (uses_s (subst_s g s) ++ uses (subst g ss) = map g (uses_s s ++ uses ss)). rewrite H, H0, map_app. reflexivity.
Qed.

Section Theorems.
Context {D state : Type} (computes : nat -> list (val D) -> state -> option (list (val D) * state)).
Lemma block_cons s rest ys e st r : run_block computes (Cons s rest) ys e st = Some r -> exists e1 st1, run_s computes s e st = Some (e1, st1) /\ run_block computes rest ys e1 st1 = Some r.
Proof. unfold run_block. rewrite run_cons. destruct (run_s computes s e st) as [[e1 st1]|]; [|discriminate]. cbn [obind]. intros H. exists e1, st1. split; [reflexivity|exact H]. Qed.
Lemma block_subst g (V : nat -> Prop) rest ys (e e' : env D) st r : (forall b, In b (binders rest) -> separate g V b) -> (forall v, In v (uses rest ++ ys) -> V v) -> rel g V e e' -> run_block computes rest ys e st = Some r -> run_block computes (subst g rest) (map g ys) e' st = Some r.
Proof.
  unfold run_block. intros Sp Us R H. destruct (run computes rest e st) as [[e1 st1]|] eqn:Rr; [|discriminate]. cbn [obind] in H. destruct (proj2 (run_subst computes g V) rest e e' st e1 st1 Sp ltac:(intros v Iv; apply Us; apply in_or_app; left; exact Iv) R Rr) as (e1' & R1 & Rl). rewrite R1. cbn [obind].
  destruct (mapM e1 ys) as [xs|] eqn:M; [|discriminate]. rewrite (rel_mapM g V _ _ _ _ Rl ltac:(intros v Iv; apply Us; apply in_or_app; right; exact Iv) M). exact H.
Qed.

(** ** A conditional on a constant becomes its branch *)
Theorem C127_constant known s rest ys e st r ss' ys' :
  fresh e (binders_s s ++ binders rest) ->
  (forall v b, known v = Some b -> bool_at e v = Some b) ->
  run_block computes (Cons s rest) ys e st = Some r -> if_constant known s rest ys = Some (ss', ys') ->
  run_block computes ss' ys' e st = Some r.
Proof.
  intros [ND Nf] Kn H Hc. destruct s as [| | |c t ty f fy rs|]; try discriminate. cbn [if_constant] in Hc. destruct (known c) as [b|] eqn:Kc; [|discriminate]. cbn in Hc. injection Hc as <- <-.
  destruct (block_cons _ _ _ _ _ _ H) as (e2 & st1 & Rs & Hr). rewrite run_if, (Kn c b Kc) in Rs. cbn [obind] in Rs. clear H.
  change (binders_s (If c t ty f fy rs)) with (binders t ++ binders f ++ rs) in *.
  assert (Go : forall w wy, (if b then do (e1, st1) <- run computes t e st ; do ys <- mapM e1 ty ; do e2 <- binds rs ys e ; Some (e2, st1) else do (e1, st1) <- run computes f e st ; do ys <- mapM e1 fy ; do e2 <- binds rs ys e ; Some (e2, st1)) = (do (e1, st1) <- run computes w e st ; do ys <- mapM e1 wy ; do e2 <- binds rs ys e ; Some (e2, st1)) -> (forall v, In v (binders w) -> In v (binders t ++ binders f)) -> run_block computes (sapp w (subst (replace rs wy) rest)) (map (replace rs wy) ys) e st = Some r).
  { intros w wy Eq Sub. rewrite Eq in Rs. destruct (run computes w e st) as [[e1 st2]|] eqn:Rw; [|discriminate]. cbn [obind] in Rs. destruct (mapM e1 wy) as [xs|] eqn:M; [|discriminate]. cbn [obind] in Rs. destruct (binds rs xs e) as [e3|] eqn:B; [|discriminate]. cbn in Rs. injection Rs as -> ->.
    unfold run_block. rewrite run_sapp, Rw. cbn [obind]. rewrite app_assoc in ND, Nf. rewrite <- app_assoc in ND. destruct (NoDup_app_inv nat _ _ ND) as (N1 & N2 & N3). destruct (NoDup_app_inv nat _ _ N2) as (N4 & N5 & N6).
    apply (block_subst (replace rs wy) (fun _ => True) rest ys e2 e1 st1 r); [|trivial| |exact Hr].
    - intros b0 Ib v _ Nv. rewrite (replace_out rs wy b0) by (intros Z; exact (N6 _ Z Ib)). intros Z. destruct (replace_either rs wy v) as [Q|Q]; [congruence|]. rewrite Z in Q. pose proof (mapM_some_in _ _ _ M b0 Q) as Q2. rewrite (proj2 (run_frame computes) w e st e1 st1 b0 Rw) in Q2; [apply Q2, Nf; apply in_or_app; right; exact Ib|]. intros Q3. exact (N3 b0 (Sub _ Q3) (in_or_app _ _ _ (or_intror Ib))).
    - intros v x _ Hv. destruct (in_dec Nat.eq_dec v rs) as [Iv|Niv]; [exact (replace_value e1 rs wy xs e e2 v x B N4 M Iv Hv)|]. rewrite (replace_out rs wy v Niv). rewrite (binds_frame _ _ _ _ _ B Niv) in Hv. rewrite (proj2 (run_frame computes) w e st e1 st1 v Rw); [exact Hv|]. intros Q. rewrite (Nf v) in Hv; [discriminate|]. apply in_or_app. left. apply in_or_app. left. exact (Sub v Q). }
  destruct b; apply Go; try reflexivity; intros v Iv; apply in_or_app; [left|right]; exact Iv.
Qed.
Theorem C127_constant_applies known s rest ys : if_constant known s rest ys <> None <-> exists c t ty f fy rs b, s = If c t ty f fy rs /\ known c = Some b.
Proof.
  split.
  - destruct s; cbn [if_constant]; try congruence. destruct (known c) as [b|] eqn:K; [|cbn; congruence]. intros _. exists c, t, ty, f, fy, rs, b. auto.
  - intros (c & t & ty & f & fy & rs & b & -> & K). cbn [if_constant]. rewrite K. cbn. discriminate.
Qed.

(** ** A result that both branches yield alike is what they yield *)
Theorem C127_agreed s rest ys e st r ss' ys' :
  fresh e (binders_s s ++ binders rest) ->
  (forall c t ty f fy rs, s = If c t ty f fy rs -> forall v, In v ty -> In v fy -> ~ In v (binders t) /\ ~ In v (binders f)) ->
  run_block computes (Cons s rest) ys e st = Some r -> if_agreed s rest ys = Some (ss', ys') ->
  run_block computes ss' ys' e st = Some r.
Proof.
  intros [ND Nf] Sc H Hc. destruct s as [| | |c t ty f fy rs|]; try discriminate. specialize (Sc c t ty f fy rs eq_refl). cbn [if_agreed] in Hc. destruct (existsb _ _); [|discriminate]. injection Hc as <- <-.
  destruct (block_cons _ _ _ _ _ _ H) as (e2 & st1 & Rs & Hr). clear H. unfold run_block. rewrite run_cons, Rs. cbn [obind]. rewrite run_if in Rs.
  change (binders_s (If c t ty f fy rs)) with (binders t ++ binders f ++ rs) in *. destruct (bool_at e c) as [b|]; [|discriminate]. cbn [obind] in Rs.
  assert (Ex : exists w wy e1 xs, run computes w e st = Some (e1, st1) /\ mapM e1 wy = Some xs /\ binds rs xs e = Some e2 /\ ((w = t /\ wy = ty) \/ (w = f /\ wy = fy))).
  { destruct b; [exists t, ty; destruct (run computes t e st) as [[e1 st2]|]; [|discriminate]; cbn [obind] in Rs; destruct (mapM e1 ty) as [xs|] eqn:M; [|discriminate]|exists f, fy; destruct (run computes f e st) as [[e1 st2]|]; [|discriminate]; cbn [obind] in Rs; destruct (mapM e1 fy) as [xs|] eqn:M; [|discriminate]]; cbn [obind] in Rs; destruct (binds rs xs e) as [e3|] eqn:B; try discriminate; cbn in Rs; injection Rs as -> ->; exists e1, xs; auto 7. }
  clear Rs. destruct Ex as (w & wy & e1 & xs & Rw & M & B & Cs). rewrite app_assoc in ND, Nf. rewrite <- app_assoc in ND. destruct (NoDup_app_inv nat _ _ ND) as (N1 & N2 & N3). destruct (NoDup_app_inv nat _ _ N2) as (N4 & N5 & N6).
  assert (Outer : forall v, In v (map snd (agreed rs ty fy)) -> e1 v = e v /\ e v <> None).
  { intros v Iv. destruct (snd_agreed _ _ _ _ Iv) as [I1 I2]. destruct (Sc v I1 I2) as [S1 S2]. assert (Q : e1 v = e v) by (apply (proj2 (run_frame computes) w e st e1 st1 v Rw); destruct Cs as [[-> _]|[-> _]]; assumption). split; [exact Q|]. rewrite <- Q. apply (mapM_some_in _ _ _ M). destruct Cs as [[_ ->]|[_ ->]]; assumption. }
  apply (block_subst _ (fun _ => True) rest ys e2 e2 st1 r); [|trivial| |exact Hr].
  - intros b0 Ib v _ Nv. rewrite (replace_out _ _ b0) by (intros Z; exact (N6 _ (map_fst_agreed _ _ _ _ Z) Ib)). intros Z. destruct (replace_either (map fst (agreed rs ty fy)) (map snd (agreed rs ty fy)) v) as [Q|Q]; [congruence|]. rewrite Z in Q. destruct (Outer b0 Q) as [_ Q2]. apply Q2, Nf, in_or_app. right. exact Ib.
  - intros v x _ Hv. destruct (in_dec Nat.eq_dec v (map fst (agreed rs ty fy))) as [Iv|Niv]; [|rewrite (replace_out _ _ v Niv); exact Hv].
    apply (replace_agreed e1 e2 rs ty fy xs e e2 v x B N4); [destruct Cs as [[_ ->]|[_ ->]]; auto| |exact Hv|exact Iv].
    intros u y Iu Hu. destruct (Outer u Iu) as [Q1 Q2]. rewrite (binds_frame _ _ _ _ _ B); [congruence|]. intros Z. apply Q2, Nf. apply in_or_app. left. apply in_or_app. right. exact Z.
Qed.
Theorem C127_agreed_applies s rest ys : if_agreed s rest ys <> None <->
  exists c t ty f fy rs i r v, s = If c t ty f fy rs /\ nth_error rs i = Some r /\ nth_error ty i = Some v /\ nth_error fy i = Some v /\ In r (uses rest ++ ys).
Proof.
  split.
  - destruct s; cbn [if_agreed]; try congruence. destruct (existsb _ _) eqn:X; [|intros H; exfalso; apply H; reflexivity]. intros _. apply existsb_exists in X. destruct X as ([r v] & I1 & U). apply in_agreed in I1. destruct I1 as (i & A1 & A2 & A3). apply in_list_true in U. exists c, t, ty, f, fy, rs, i, r, v. auto.
  - intros (c & t & ty & f & fy & rs & i & r & v & -> & A1 & A2 & A3 & U). cbn [if_agreed]. rewrite (proj2 (existsb_exists _ _)); [discriminate|]. exists (r, v). split; [apply in_agreed; exists i; auto|apply in_list_true; exact U].
Qed.
(** afterwards the result is not used: the pattern does not match again *)
Theorem C127_agreed_once c t ty f fy rs rest ys ss' ys' : (forall v, In v rs -> ~ In v ty) ->
  if_agreed (If c t ty f fy rs) rest ys = Some (ss', ys') -> exists rest', ss' = Cons (If c t ty f fy rs) rest' /\ if_agreed (If c t ty f fy rs) rest' ys' = None.
Proof.
  intros Sc. cbn [if_agreed]. destruct (existsb _ _); [|discriminate]. intros [= <- <-]. eexists. split; [reflexivity|]. match goal with |- context [existsb ?f ?l] => destruct (existsb f l) eqn:X end; [|reflexivity]. exfalso.
  apply existsb_exists in X. destruct X as ([r v] & I1 & U). apply in_list_true in U. cbn [fst] in U. rewrite (proj2 (uses_subst _)), <- map_app in U. apply in_map_iff in U. destruct U as (u & E1 & _).
  set (ps := agreed rs ty fy) in *. assert (Ir : In r (map fst ps)) by (apply in_map_iff; exists (r, v); auto). pose proof (map_fst_agreed _ _ _ _ Ir) as Irs.
  assert (Nr : ~ In r (map snd ps)) by (intros Z; exact (Sc r Irs (proj1 (snd_agreed _ _ _ _ Z)))).
  destruct (in_dec Nat.eq_dec u (map fst ps)) as [Iu|Nu]; [apply Nr; rewrite <- E1; apply replace_in; [exact Iu|rewrite !map_length; reflexivity]|]. rewrite replace_out in E1 by exact Nu. congruence.
Qed.

(** ** Results that nothing uses are not yielded *)
Lemma keep_mapM {B} (e : nat -> option B) : forall live vs xs, mapM e vs = Some xs -> exists ys, mapM e (keep live vs) = Some ys /\ forall (rs : list nat), True -> List.length ys = List.length (keep live vs).
Proof.
  induction live as [|b live IH]; intros [|v vs] xs H; cbn [keep]; try (exists []; split; [reflexivity|reflexivity]). cbn [mapM] in H. destruct (e v) as [x|] eqn:Ev; [|discriminate]. cbn [obind] in H. destruct (mapM e vs) as [zs|] eqn:M; [|discriminate]. destruct (IH vs zs M) as (ys & H1 & H2). destruct b; [|exists ys; auto]. exists (x :: ys). split; [cbn [mapM]; rewrite Ev; cbn [obind]; rewrite H1; reflexivity|intros rs0 _; cbn; f_equal; exact (H2 rs0 Logic.I)].
Qed.
Lemma keep_binds (U : nat -> bool) (e1 : env D) : forall rs wy xs e e' e2, mapM e1 wy = Some xs -> binds rs xs e = Some e2 -> (forall v x, U v = true -> e v = Some x -> e' v = Some x) ->
  exists zs e2', mapM e1 (keep (map U rs) wy) = Some zs /\ binds (keep (map U rs) rs) zs e' = Some e2' /\ forall v x, U v = true -> e2 v = Some x -> e2' v = Some x.
Proof.
  induction rs as [|r rs IH]; intros wy xs e e' e2 M B R; destruct xs as [|x xs]; try discriminate.
  - injection B as <-. exists [], e'. destruct wy; [|cbn [mapM] in M; destruct (e1 n); [|discriminate]; cbn [obind] in M; destruct (mapM e1 wy); discriminate]. auto.
  - destruct wy as [|w wy]; [discriminate|]. cbn [mapM binds map keep] in *. destruct (e1 w) as [y|] eqn:Ew; [|discriminate]. cbn [obind] in M. destruct (mapM e1 wy) as [ys|] eqn:M2; [|discriminate]. cbn in M. injection M as -> ->. destruct (U r) eqn:Ur.
    + destruct (IH wy xs (upd e r x) (upd e' r x) e2 M2 B) as (zs & e2' & H1 & H2 & H3).
      { intros v z Uv Hv. destruct (Nat.eq_dec v r) as [->|N]; [rewrite upd_eq in *; exact Hv|]. rewrite upd_neq in * by exact N. exact (R v z Uv Hv). }
      exists (x :: zs), e2'. cbn [mapM binds]. rewrite Ew. cbn [obind]. rewrite H1. auto.
    + apply (IH wy xs (upd e r x) e' e2 M2 B). intros v z Uv Hv. rewrite upd_neq in Hv by congruence. exact (R v z Uv Hv).
Qed.
Theorem C127_dead s rest ys e st r ss' ys' :
  run_block computes (Cons s rest) ys e st = Some r -> if_dead s rest ys = Some (ss', ys') ->
  run_block computes ss' ys' e st = Some r.
Proof.
  intros H Hc. destruct s as [| | |c t ty f fy rs|]; try discriminate. destruct (block_cons _ _ _ _ _ _ H) as (e2 & st1 & Rs & Hr). clear H. rewrite run_if in Rs. destruct (bool_at e c) as [b|] eqn:Eb; [|discriminate]. cbn [obind] in Rs. set (U := used rest ys) in *.
  assert (Same : forall e', (forall v x, U v = true -> e2 v = Some x -> e' v = Some x) -> run_block computes rest ys e' st1 = Some r).
  { intros e' R. rewrite <- (proj2 subst_id rest), <- (map_id ys). apply (block_subst (fun v => v) (fun v => U v = true) rest ys e2 e' st1 r); [intros b0 _ v _ N; exact N|intros v Iv; apply in_list_true; exact Iv|exact R|exact Hr]. }
  cbn [if_dead] in Hc. fold U in Hc. destruct (forallb negb (map U rs) && empty t && empty f) eqn:All.
  - injection Hc as <- <-. apply andb_prop in All. destruct All as [All Ef]. apply andb_prop in All. destruct All as [All Et]. destruct t; [|discriminate]. destruct f; [|discriminate].
    assert (Q : exists xs, binds rs xs e = Some e2 /\ st1 = st). { destruct b; cbn [run obind] in Rs; [destruct (mapM e ty) as [xs|]; [|discriminate]|destruct (mapM e fy) as [xs|]; [|discriminate]]; cbn [obind] in Rs; destruct (binds rs xs e) as [e3|] eqn:B; try discriminate; cbn in Rs; injection Rs as -> ->; exists xs; auto. }
    destruct Q as (xs & B & ->). apply Same. intros v x Uv Hv. rewrite <- Hv. symmetry. apply (binds_frame _ _ _ _ _ B). intros Iv. rewrite forallb_forall in All. specialize (All (U v) (in_map U rs v Iv)). rewrite Uv in All. discriminate.
  - destruct (existsb negb (map U rs)); [|discriminate]. injection Hc as <- <-. unfold run_block. rewrite run_cons, run_if, Eb. cbn [obind].
    destruct b; [destruct (run computes t e st) as [[e1 st2]|]; [|discriminate]; cbn [obind] in *; destruct (mapM e1 ty) as [xs|] eqn:M; [|discriminate]|destruct (run computes f e st) as [[e1 st2]|]; [|discriminate]; cbn [obind] in *; destruct (mapM e1 fy) as [xs|] eqn:M; [|discriminate]]; cbn [obind] in Rs; destruct (binds rs xs e) as [e3|] eqn:B; try discriminate; cbn in Rs; injection Rs as -> ->; destruct (keep_binds U e1 rs _ xs e e e2 M B ltac:(auto)) as (zs & e2' & H1 & H2 & H3); rewrite H1; cbn [obind]; rewrite H2; cbn [obind]; exact (Same e2' H3).
Qed.
Lemma keep_in (U : nat -> bool) : forall rs r, In r (keep (map U rs) rs) <-> In r rs /\ U r = true.
Proof. intros rs r. replace (keep (map U rs) rs) with (filter U rs); [apply filter_In|]. induction rs as [|a rs IH]; [reflexivity|]. cbn [map keep filter]. destruct (U a); rewrite IH; reflexivity. Qed.
(** it matches when some result is unused, or when nothing at all is left; then only the used results are left, or nothing *)
Theorem C127_dead_applies s rest ys : if_dead s rest ys <> None <->
  exists c t ty f fy rs, s = If c t ty f fy rs /\ ((exists r, In r rs /\ ~ In r (uses rest ++ ys)) \/ (rs = [] /\ t = Nil /\ f = Nil)).
Proof.
  split.
  - destruct s as [| | |c t ty f fy rs|]; cbn [if_dead]; try congruence. intros H. exists c, t, ty, f, fy, rs. split; [reflexivity|]. destruct (existsb negb (map (used rest ys) rs)) eqn:X.
    + left. apply existsb_exists in X. destruct X as (b & I1 & Nb). apply in_map_iff in I1. destruct I1 as (r & <- & I1). exists r. split; [exact I1|]. apply in_list_false. unfold used in Nb. destruct (in_list r (uses rest ++ ys)); [discriminate|reflexivity].
    + destruct rs as [|r rs]; [|cbn [map existsb forallb] in *; destruct (used rest ys r); [cbn [negb andb orb] in H, X; cbn in H; congruence|discriminate]]. right. cbn in H. destruct t; [|cbn in H; congruence]. destruct f; [|cbn in H; congruence]. auto.
  - intros (c & t & ty & f & fy & rs & -> & [(r & I1 & N)|(-> & -> & ->)]); cbn [if_dead]; [|discriminate]. destruct (forallb _ _ && _ && _); [discriminate|]. rewrite (proj2 (existsb_exists _ _)); [discriminate|]. exists (used rest ys r). split; [apply in_map; exact I1|]. apply in_list_false in N. unfold used. rewrite N. reflexivity.
Qed.
Theorem C127_dead_result c t ty f fy rs rest ys ss' ys' : if_dead (If c t ty f fy rs) rest ys = Some (ss', ys') ->
  ys' = ys /\ ((t = Nil /\ f = Nil /\ (forall r, In r rs -> ~ In r (uses rest ++ ys)) /\ ss' = rest) \/
  exists ty' fy' rs', ss' = Cons (If c t ty' f fy' rs') rest /\ (forall r, In r rs' <-> In r rs /\ In r (uses rest ++ ys)) /\ (t <> Nil \/ f <> Nil \/ exists r, In r rs')).
Proof.
  cbn [if_dead]. destruct (forallb _ _ && _ && _) eqn:All.
  - intros [= <- <-]. split; [reflexivity|]. left. apply andb_prop in All. destruct All as [All Ef]. apply andb_prop in All. destruct All as [All Et]. destruct t; [|discriminate]. destruct f; [|discriminate]. repeat split. intros r I1. apply in_list_false. rewrite forallb_forall in All. specialize (All _ (in_map (used rest ys) rs r I1)). unfold used in All. destruct (in_list r _); [discriminate|reflexivity].
  - destruct (existsb _ _); [|discriminate]. intros [= <- <-]. split; [reflexivity|]. right. exists (keep (map (used rest ys) rs) ty), (keep (map (used rest ys) rs) fy), (keep (map (used rest ys) rs) rs). split; [reflexivity|]. split; [intros r; rewrite keep_in; unfold used; rewrite in_list_true; reflexivity|].
    destruct t; [|left; discriminate]. destruct f; [|right; left; discriminate]. right. right. cbn [empty] in All. rewrite !andb_true_r in All. assert (X : exists r, In r rs /\ used rest ys r = true). { clear -All. induction rs as [|r rs IH]; [discriminate|]. cbn [map forallb] in All. destruct (used rest ys r) eqn:Ur; [exists r; split; [left; reflexivity|exact Ur]|]. destruct (IH All) as (q & I1 & Uq). exists q. split; [right; exact I1|exact Uq]. }
    destruct X as (r & X). exists r. apply keep_in. exact X.
Qed.

(** ** The unrolling of loops *)
Definition below (n : nat) (l : list nat) : Prop := forall v, In v l -> v < n.
Lemma run_indices n st : forall more i (E : env D), exists E', run computes (indices n more i) E st = Some (E', st) /\ (forall v, v < n + i \/ n + i + more <= v -> E' v = E v) /\ (forall j, i <= j < i + more -> E' (n + j) = Some (VZ (Z.of_nat j))).
Proof.
  induction more as [|more IH]; intros i E; [exists E; cbn; repeat split; auto; intros; lia|]. cbn [indices]. rewrite run_cons. cbn [run_s obind]. destruct (IH (S i) (upd E (n + i) (VZ (Z.of_nat i)))) as (E' & H1 & H2 & H3). exists E'. split; [exact H1|]. split.
  - intros v Hv. rewrite H2 by lia. apply upd_neq. lia.
  - intros j Hj. destruct (Nat.eq_dec j i) as [->|N]; [rewrite H2 by lia; apply upd_eq|apply H3; lia].
Qed.
Section Unroll.
Context (n k : nat) (e : env D) (params : list nat) (body : stmts) (cond : nat) (yields : list nat).
Context (Dom : forall v, e v <> None -> v < n) (Np : below n params) (Nb : below n (binders body)) (Nu : below n (uses body)) (Ny : below n yields).
Context (Dup : NoDup (params ++ binders body)) (Free : forall v, In v (params ++ binders body) -> e v = None).
Context (Cond : forall i xs e1 st e2 st1, binds params (VZ i :: xs) e = Some e1 -> run computes body e1 st = Some (e2, st1) -> bool_at e2 cond = Some true).
Lemma mapM_lookup i iters : forall ys vs, mapM (lookup n k i params body iters) ys = Some vs -> vs = map (copy_map n k i params body iters) ys /\ forall v, In v ys -> In v (params ++ binders body).
Proof.
  induction ys as [|y ys IH]; intros vs H; [injection H as <-; split; [reflexivity|intros v []]|]. cbn [mapM] in H. unfold lookup at 1 in H. destruct (in_list y (params ++ binders body)) eqn:Iy; [|discriminate]. cbn [obind] in H. destruct (mapM _ ys) as [ws|] eqn:M; [|discriminate]. cbn in H. injection H as <-. destruct (IH ws eq_refl) as [-> H2]. split; [reflexivity|]. intros v [<-|Iv]; [apply in_list_true; exact Iy|exact (H2 v Iv)].
Qed.
Lemma binds_len : forall rs xs (a b : env D), binds rs xs a = Some b -> List.length rs = List.length xs.
Proof. induction rs as [|r rs IH]; intros [|x xs] a b H; cbn [binds] in H; try discriminate; [reflexivity|]. cbn. f_equal. exact (IH _ _ _ H). Qed.
Lemma mapM_len {A B} (f : A -> option B) : forall l ys, mapM f l = Some ys -> List.length ys = List.length l.
Proof. induction l as [|a l IH]; intros ys H; [injection H as <-; reflexivity|]. cbn [mapM] in H. destruct (f a); [|discriminate]. cbn [obind] in H. destruct (mapM f l) as [zs|]; [|discriminate]. cbn in H. injection H as <-. cbn. f_equal. apply IH. reflexivity. Qed.
Lemma run_copies : forall more i iters xs st xs' st' cs last (E : env D),
  i + more <= k -> (forall v, v < n -> E v = e v) -> (forall j, j < k -> E (n + j) = Some (VZ (Z.of_nat j))) -> mapM E iters = Some xs -> below (n + k + i * n) iters ->
  loop computes e params body cond yields more (Z.of_nat i) true xs st = Some (xs', st') -> copies n k more i params body yields iters = Some (cs, last) ->
  exists E', run computes cs E st = Some (E', st') /\ (forall v, v < n -> E' v = e v) /\ mapM E' last = Some xs'.
Proof.
  induction more as [|more IH]; intros i iters xs st xs' st' cs last E Le Ag Ix Mi Bi Hl Hc; cbn [loop copies] in *; [injection Hl as <- <-; injection Hc as <- <-; exists E; auto|].
  destruct (binds params (VZ (Z.of_nat i) :: xs) e) as [e1|] eqn:B; [|discriminate]. cbn [obind] in Hl. destruct (run computes body e1 st) as [[e2 st1]|] eqn:Rb; [|discriminate]. cbn [obind] in Hl. rewrite (Cond _ _ _ _ _ _ B Rb) in Hl. cbn [obind] in Hl. destruct (mapM e2 yields) as [ys|] eqn:My; [|discriminate]. cbn [obind] in Hl.
  destruct (mapM (lookup n k i params body iters) yields) as [iters'|] eqn:Ml; [|discriminate]. cbn [obind] in Hc. destruct (copies n k more (S i) params body yields iters') as [[cs2 last2]|] eqn:Hc2; [|discriminate]. cbn in Hc. injection Hc as <- <-. destruct (mapM_lookup _ _ _ _ Ml) as [-> Iny]. set (g := copy_map n k i params body iters) in *.
  destruct (NoDup_app_inv nat _ _ Dup) as (N1 & N2 & N3).
  assert (Mw : mapM E ((n + i) :: iters) = Some (VZ (Z.of_nat i) :: xs)) by (cbn [mapM]; rewrite (Ix i) by lia; cbn [obind]; rewrite Mi; reflexivity).
  assert (Len : List.length params = List.length ((n + i) :: iters)) by (rewrite (binds_len _ _ _ _ B); cbn; f_equal; exact (mapM_len _ _ _ Mi)).
  assert (Gb : forall v, In v (binders body) -> g v = n + k + i * n + v). { intros v Iv. unfold g, copy_map. rewrite (proj2 (in_list_false v params)) by (intros Z; exact (N3 v Z Iv)). rewrite (proj2 (in_list_true v _) Iv). reflexivity. }
  assert (Gp : forall v, In v params -> g v = replace params ((n + i) :: iters) v) by (intros v Iv; unfold g, copy_map; rewrite (proj2 (in_list_true v _) Iv); reflexivity).
  assert (Go : forall v, ~ In v params -> ~ In v (binders body) -> g v = v) by (intros v A1 A2; unfold g, copy_map; rewrite (proj2 (in_list_false v _) A1), (proj2 (in_list_false v _) A2); reflexivity).
  assert (Gpb : forall v, In v params -> g v < n + k + i * n). { intros v Iv. rewrite (Gp v Iv). destruct (replace_in params ((n + i) :: iters) v Iv Len) as [Z|Z]; [rewrite <- Z; lia|exact (Bi _ Z)]. }
  assert (Rl : rel g (fun v => v < n) e1 E).
  { intros v x Lv Hv. destruct (in_dec Nat.eq_dec v params) as [Iv|Nv]; [rewrite (Gp v Iv); exact (replace_value E params _ _ e e1 v x B N1 Mw Iv Hv)|]. rewrite (binds_frame _ _ _ _ _ B Nv) in Hv. assert (Nvb : ~ In v (binders body)) by (intros Z; rewrite (Free v) in Hv; [discriminate|apply in_or_app; right; exact Z]). rewrite (Go v Nv Nvb), (Ag v Lv). exact Hv. }
  destruct (proj2 (run_subst computes g (fun v => v < n)) body e1 E st e2 st1) as (E2 & R2 & Rl2); [|exact Nu|exact Rl|exact Rb|].
  { intros b Ib v Lv Nv. rewrite (Gb b Ib). destruct (in_dec Nat.eq_dec v params) as [Iv|Nvp]; [pose proof (Gpb v Iv); lia|]. destruct (in_dec Nat.eq_dec v (binders body)) as [Iv|Nvb]; [rewrite (Gb v Iv); lia|rewrite (Go v Nvp Nvb); lia]. }
  assert (Fr : forall v, v < n + k -> E2 v = E v). { intros v Lv. apply (proj2 (run_frame computes) _ _ _ _ _ v R2). rewrite (proj2 (binders_subst g)). intros Z. apply in_map_iff in Z. destruct Z as (b & <- & Ib). rewrite (Gb b Ib) in Lv. lia. }
  destruct (IH (S i) (map g yields) ys st1 xs' st' cs2 last2 E2) as (E' & R' & A' & M'); [lia|intros v Lv; rewrite Fr by lia; exact (Ag v Lv)|intros j Lj; rewrite Fr by lia; exact (Ix j Lj)|exact (rel_mapM g _ _ _ _ _ Rl2 Ny My)| |replace (Z.of_nat (S i)) with (Z.of_nat i + 1)%Z by lia; exact Hl|exact Hc2|].
  { intros w Iw. apply in_map_iff in Iw. destruct Iw as (v & <- & Iv). destruct (in_app_or _ _ _ (Iny v Iv)) as [Ip|Ib]; [pose proof (Gpb v Ip); cbn; lia|rewrite (Gb v Ib); pose proof (Nb v Ib); cbn; lia]. }
  exists E'. split; [rewrite run_sapp, R2; exact R'|auto].
Qed.
End Unroll.
(** If the condition of the body is always true, the unrolled loop computes what the loop does *)
Theorem C127_unroll_partial in_calculation known known_int n trip init inits params body cond yields rs rest ys e st r ss' ys' :
  fresh e (params ++ binders body ++ rs ++ binders rest) -> below n (params ++ binders body ++ uses body ++ yields ++ inits ++ rs ++ binders rest) -> (forall v, e v <> None -> v < n) ->
  List.length yields = List.length rs ->
  (forall v b, known v = Some b -> bool_at e v = Some b) -> (forall v z, known_int v = Some z -> int_at e v = Some z) ->
  (forall i xs e1 st e2 st1, binds params (VZ i :: xs) e = Some e1 -> run computes body e1 st = Some (e2, st1) -> bool_at e2 cond = Some true) ->
  run_block computes (Cons (Loop trip init inits params body cond yields rs) rest) ys e st = Some r ->
  unroll in_calculation known known_int n (Loop trip init inits params body cond yields rs) rest ys = Unrolled ss' ys' ->
  run_block computes ss' ys' e st = Some r.
Proof.
  intros [ND Nf] Bl Dom Ly Kb Ki Cond H Hu. cbn [unroll] in Hu. destruct in_calculation; [|discriminate]. destruct (known init) as [[]|] eqn:K1; try discriminate. destruct (known_int trip) as [z|] eqn:K2; [|discriminate].
  destruct (block_cons _ _ _ _ _ _ H) as (e2 & st1 & Rs & Hr). clear H. rewrite run_loop, (Ki _ _ K2), (Kb _ _ K1) in Rs. cbn [obind] in Rs. destruct (mapM e inits) as [xs|] eqn:Mi; [|discriminate]. cbn [obind] in Rs. destruct (loop computes e params body cond yields (Z.to_nat z) 0%Z true xs st) as [[xs' st2]|] eqn:Hl; [|discriminate]. cbn [obind] in Rs. destruct (binds rs xs' e) as [e3|] eqn:B; [|discriminate]. cbn in Rs. injection Rs as -> ->.
  destruct (Z.ltb_spec z 0) as [Neg|Pos].
  - destruct yields; [|discriminate]. injection Hu as <- <-. destruct rs; [|discriminate]. replace (Z.to_nat z) with 0 in Hl by lia. cbn [loop] in Hl. injection Hl as <- <-. destruct xs; [|discriminate]. cbn [binds] in B. injection B as <-.
    apply (block_subst (replace [] []) (fun _ => True) rest ys e e st r); [intros b _ v _ N; exact N|trivial|intros v x _ Hv; exact Hv|exact Hr].
  - set (k := Z.to_nat z) in *. destruct (copies n k k 0 params body yields inits) as [[cs last]|] eqn:Hc; [|discriminate]. injection Hu as <- <-.
    assert (Bl2 : forall l, incl l (params ++ binders body ++ uses body ++ yields ++ inits ++ rs ++ binders rest) -> below n l) by (intros l Hi v Iv; exact (Bl v (Hi v Iv))).
    destruct (run_indices n st k 0 e) as (E & R1 & A1 & I1).
    assert (In1 : forall v, In v inits -> v < n) by (intros v Iv; apply Bl; rewrite !in_app_iff; tauto).
    rewrite app_assoc in ND. destruct (NoDup_app_inv nat _ _ ND) as (N1 & N2 & N3). destruct (NoDup_app_inv nat _ _ N2) as (N4 & N5 & N6).
    destruct (run_copies n k e params body cond yields Dom ltac:(intros v Iv; apply Bl; rewrite !in_app_iff; tauto) ltac:(intros v Iv; apply Bl; rewrite !in_app_iff; tauto) ltac:(intros v Iv; apply Bl; rewrite !in_app_iff; tauto) N1 ltac:(intros v Iv; apply Nf; rewrite !in_app_iff in *; tauto) Cond k 0 inits xs st xs' st1 cs last E) as (E' & R' & A' & M').
    + lia.
    + intros v Lv. apply A1. lia.
    + intros j Lj. apply I1. lia.
    + clear -Mi A1 In1. revert xs Mi. induction inits as [|v l IH]; intros xs Mi; [exact Mi|]. cbn [mapM] in *. rewrite A1 by (pose proof (In1 v (or_introl eq_refl)); lia). destruct (e v); [|discriminate]. cbn [obind] in *. destruct (mapM e l) as [zs|]; [|discriminate]. rewrite (IH ltac:(intros w Iw; apply In1; right; exact Iw) zs eq_refl). exact Mi.
    + intros v Iv. pose proof (In1 v Iv). lia.
    + exact Hl.
    + exact Hc.
    + unfold run_block. rewrite run_sapp, R1. cbn [obind]. rewrite run_sapp, R'. cbn [obind]. apply (block_subst (replace rs last) (fun _ => True) rest ys e2 E' st1 r); [|trivial| |exact Hr].
      * intros b Ib v _ Nv. rewrite (replace_out rs last b) by (intros Z; exact (N6 _ Z Ib)). intros Z. destruct (replace_either rs last v) as [Q|Q]; [congruence|]. rewrite Z in Q. apply (mapM_some_in _ _ _ M' b Q). rewrite A' by (apply Bl; rewrite !in_app_iff; tauto). apply Nf. rewrite !in_app_iff. tauto.
      * intros v x _ Hv. destruct (in_dec Nat.eq_dec v rs) as [Iv|Niv]; [exact (replace_value E' rs last xs' e e2 v x B N4 M' Iv Hv)|]. rewrite (replace_out rs last v Niv). rewrite (binds_frame _ _ _ _ _ B Niv) in Hv. rewrite A'; [exact Hv|apply Dom; congruence].
Qed.
End Theorems.
Lemma copies_some n k params body ys : (forall v, In v ys -> In v (params ++ binders body)) -> forall more i iters, exists r, copies n k more i params body ys iters = Some r.
Proof.
  intros Hy. induction more as [|more IH]; intros i iters; [eexists; reflexivity|]. cbn [copies].
  assert (M : exists vs, mapM (lookup n k i params body iters) ys = Some vs). { clear IH. induction ys as [|y ys IHy]; [exists []; reflexivity|]. destruct IHy as (vs & Hv); [intros v Iv; apply Hy; right; exact Iv|]. cbn [mapM]. unfold lookup at 1. rewrite (proj2 (in_list_true _ _) (Hy y (or_introl eq_refl))). cbn [obind]. rewrite Hv. eexists. reflexivity. }
  destruct M as (vs & ->). cbn [obind]. destruct (IH (S i) vs) as ([cs l] & ->). eexists. reflexivity.
Qed.
(** when it matches, and when the assertion of IRMapping::lookup fails *)
Theorem C127_unroll_applies in_calculation known known_int n s rest ys :
  (unroll in_calculation known known_int n s rest ys <> Mismatch <-> in_calculation = true /\ exists trip init inits params body cond yields rs z, s = Loop trip init inits params body cond yields rs /\ known init = Some true /\ known_int trip = Some z) /\
  forall trip init inits params body cond yields rs z, s = Loop trip init inits params body cond yields rs -> in_calculation = true -> known init = Some true -> known_int trip = Some z ->
    (unroll in_calculation known known_int n s rest ys = Missing <-> yields <> [] /\ ((z < 0)%Z \/ ((0 < z)%Z /\ exists v, In v yields /\ ~ In v (params ++ binders body)))).
Proof.
  split.
  - split.
    + destruct s; cbn [unroll]; try congruence. destruct in_calculation; [|congruence]. destruct (known init) as [[]|] eqn:K; try congruence. destruct (known_int trip) as [z|] eqn:K2; [|congruence]. intros _. split; [reflexivity|]. exists trip, init, inits, params, body, cond, yields, rs, z. auto.
    + intros (-> & trip & init & inits & params & body & cond & yields & rs & z & -> & K1 & K2). cbn [unroll]. rewrite K1, K2. destruct (z <? 0)%Z; [destruct yields; discriminate|]. destruct (copies _ _ _ _ _ _ _ _) as [[cs l]|]; discriminate.
  - intros trip init inits params body cond yields rs z -> -> K1 K2. cbn [unroll]. rewrite K1, K2. destruct (Z.ltb_spec z 0) as [Neg|Pos].
    + destruct yields; split; try discriminate; [intros (Q & _); congruence|intros _; split; [discriminate|left; exact Neg]|reflexivity].
    + destruct (in_dec (fun a b => Nat.eq_dec a b) 0 []) as [[]|_]. destruct (forallb (fun v => in_list v (params ++ binders body)) yields) eqn:All.
      * rewrite forallb_forall in All. destruct (copies_some n (Z.to_nat z) params body yields ltac:(intros v Iv; apply in_list_true, All, Iv) (Z.to_nat z) 0 inits) as ([cs l] & ->). split; [discriminate|]. intros (_ & [Q|(_ & v & Iv & Nv)]); [lia|]. exfalso. apply Nv, in_list_true, All, Iv.
      * assert (X : exists v, In v yields /\ ~ In v (params ++ binders body)). { clear -All. induction yields as [|y l IH]; [discriminate|]. cbn [forallb] in All. destruct (in_list y (params ++ binders body)) eqn:Iy; [destruct (IH All) as (v & I1 & Nv); exists v; split; [right; exact I1|exact Nv]|exists y; split; [left; reflexivity|apply in_list_false; exact Iy]]. }
        destruct X as (v & Iv & Nv). assert (Ny : yields <> []) by (intros ->; destruct Iv). destruct (Z.to_nat z) as [|k] eqn:Ek; cbn [copies].
        -- split; [discriminate|]. intros (_ & [Q|(Q & _)]); lia.
        -- assert (Mn : mapM (lookup n (S k) 0 params body inits) yields = None). { destruct (mapM _ yields) as [vs|] eqn:M; [|reflexivity]. exfalso. apply (mapM_some_in _ _ _ M v Iv). unfold lookup. rewrite (proj2 (in_list_false _ _) Nv). reflexivity. }
           rewrite Mn. cbn [obind]. split; [intros _; split; [exact Ny|right; split; [lia|exists v; auto]]|reflexivity].
Qed.

(** ** What goes wrong *)
Definition adds (name : nat) (xs : list (val unit)) (st : nat) : option (list (val unit) * nat) :=
  match name, xs with
  | 0, [VZ a; VZ b] => Some ([VZ (a + b)%Z], S st)
  | 1, [VZ a; VZ b] => Some ([VB (a <? b)%Z], S st)
  | _, _ => None
  end.
Definition outer : env unit := fun v => match v with 0 => Some (VZ 3) | 1 => Some (VB true) | 2 => Some (VZ 10) | 3 => Some (VZ 1) | _ => None end.
Definition sum_body : stmts := Cons (Op [6] 0 [5; 4]) Nil.
Definition sum_loop (cond : nat) (ys : list nat) : stmt := Loop 0 1 [2] [4; 5] sum_body cond ys [8].
Definition kb (v : nat) : option bool := bool_at outer v.
Definition ki (v : nat) : option Z := int_at outer v.
(** isForLike only looks at the condition before the loop: a loop whose body ends it early runs on when unrolled *)
Theorem C127_break_refuted : ~ forall s rest ys ss' ys' (r : list (val unit) * nat), fresh outer (binders_s s ++ binders rest) ->
  run_block adds (Cons s rest) ys outer 0 = Some r -> unroll true kb ki 10 s rest ys = Unrolled ss' ys' -> run_block adds ss' ys' outer 0 = Some r.
Proof.
  intros H. specialize (H (Loop 0 1 [2] [4; 5] (Cons (Op [6] 0 [5; 4]) (Cons (Op [7] 1 [4; 3]) Nil)) 7 [6] [8]) Nil [8]).
  eassert (X : _ = _) by (eapply H; [|vm_compute; reflexivity|vm_compute; reflexivity]; split; [repeat constructor; cbn; intuition lia|cbn; intros b Hb; repeat (destruct Hb as [<-|Hb]; [reflexivity|]); destruct Hb]). vm_compute in X. discriminate.
Qed.
(** a loop that yields a value from outside its body ends in a failed assertion *)
Theorem C127_outer_refuted : ~ forall s (r : list (val unit) * nat), fresh outer (binders_s s) -> run_block adds (Cons s Nil) [8] outer 0 = Some r -> unroll true kb ki 10 s Nil [8] <> Missing.
Proof.
  intros H. specialize (H (sum_loop 1 [3])). eapply H; [split; [repeat constructor; cbn; intuition lia|cbn; intros b Hb; repeat (destruct Hb as [<-|Hb]; [reflexivity|]); destruct Hb]|vm_compute; reflexivity|vm_compute; reflexivity].
Qed.
(** and so does a loop with a negative trip count, which just passes on its initial values *)
Theorem C127_negative_refuted : ~ forall z (r : list (val unit) * nat), run_block adds (Cons (CInt 9 z) (Cons (Loop 9 1 [2] [4; 5] sum_body 1 [6] [8]) Nil)) [8] outer 0 = Some r ->
  unroll true kb (fun v => if v =? 9 then Some z else None) 10 (Loop 9 1 [2] [4; 5] sum_body 1 [6] [8]) Nil [8] <> Missing.
Proof. intros H. eapply (H (-1)%Z); [vm_compute; reflexivity|vm_compute; reflexivity]. Qed.
Example C127_nonvacuous :
  fresh outer ([4; 5] ++ binders sum_body ++ [8] ++ []) /\
  run_block adds (Cons (sum_loop 1 [6]) Nil) [8] outer 0 = Some ([VZ 13], 3) /\
  (exists ss' ys', unroll true kb ki 10 (sum_loop 1 [6]) Nil [8] = Unrolled ss' ys' /\ run_block adds ss' ys' outer 0 = Some ([VZ 13], 3)) /\
  if_constant kb (If 1 (Cons (Op [4] 0 [2; 3]) Nil) [4] Nil [2] [5]) (Cons (Op [6] 0 [5; 5]) Nil) [6] = Some (Cons (Op [4] 0 [2; 3]) (Cons (Op [6] 0 [4; 4]) Nil), [6]) /\
  if_agreed (If 1 Nil [2; 3] Nil [2; 0] [5; 6]) Nil [5; 6] = Some (Cons (If 1 Nil [2; 3] Nil [2; 0] [5; 6]) Nil, [2; 6]) /\
  if_dead (If 1 Nil [2; 3] Nil [2; 0] [5; 6]) Nil [2; 6] = Some (Cons (If 1 Nil [3] Nil [0] [6]) Nil, [2; 6]).
Proof. split; [split; [repeat constructor; cbn; intuition lia|cbn; intros b Hb; repeat (destruct Hb as [<-|Hb]; [reflexivity|]); destruct Hb]|]. vm_compute. repeat split. do 2 eexists. split; reflexivity. Qed.
Print Assumptions C127_constant.
Print Assumptions C127_constant_applies.
Print Assumptions C127_agreed.
Print Assumptions C127_agreed_applies.
Print Assumptions C127_agreed_once.
Print Assumptions C127_dead.
Print Assumptions C127_dead_applies.
Print Assumptions C127_dead_result.
Print Assumptions C127_unroll_partial.
Print Assumptions C127_unroll_applies.
Print Assumptions C127_break_refuted.
Print Assumptions C127_outer_refuted.
Print Assumptions C127_negative_refuted.
