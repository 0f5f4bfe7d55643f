(** Lemmas on the interpretation of list operations. *)
From Coq Require Import Bool PeanoNat ZArith Lia List.
From Verif Require Import Prelude ListInterpModel ListInterpSpec.
Import ListNotations.
Open Scope nat_scope.

Lemma upd_eq {X} (f : nat -> option X) k x : upd f k x k = Some x.
Proof. unfold upd. rewrite Nat.eqb_refl. reflexivity. Qed.
Lemma upd_neq {X} (f : nat -> option X) k x i : i <> k -> upd f k x i = f i.
Proof. intros N. unfold upd. destruct (Nat.eqb_spec i k); [contradiction|reflexivity]. Qed.
Lemma has_true l vs : has l vs = true <-> In l vs.
Proof. unfold has. rewrite existsb_exists. split; [intros (x & H & E); apply Nat.eqb_eq in E; subst; exact H|intros H; exists l; split; [exact H|apply Nat.eqb_refl]]. Qed.
Lemma has_false l vs : has l vs = false <-> ~ In l vs.
Proof. rewrite <- has_true. destruct (has l vs); split; intros H; try discriminate; try reflexivity. exfalso. apply H. reflexivity. Qed.
Lemma swap_l l cur : swap l cur l = cur.
Proof. unfold swap. rewrite Nat.eqb_refl. reflexivity. Qed.
Lemma swap_other l cur v : v <> l -> swap l cur v = v.
Proof. intros N. unfold swap. destruct (Nat.eqb_spec v l); [contradiction|reflexivity]. Qed.
Lemma swap_map l cur vs : ~ In l vs -> map (swap l cur) vs = vs.
Proof. induction vs as [|v vs IH]; intros N; [reflexivity|]. cbn [map]. rewrite swap_other, IH; [reflexivity| |]; intros Z; apply N; [right; exact Z|left; exact Z]. Qed.
Lemma swap_swap l cur last v : cur <> l -> swap l last (swap l cur v) = swap l cur v.
Proof. intros N. destruct (Nat.eq_dec v l) as [->|N2]; [rewrite swap_l; apply swap_other; exact N|rewrite (swap_other _ _ _ N2); apply swap_other; exact N2]. Qed.
Lemma const_in prog v z : const prog v = Some z -> In (Int v z) prog.
Proof.
  induction prog as [|o prog IH]; [discriminate|]. destruct o as [r z'|r els|s e u|s i e u|s i e u|r x|r is]; cbn [const]; try (intros H; right; exact (IH H)).
  destruct (Nat.eqb_spec r v) as [->|N]; [intros [= ->]; left; reflexivity|intros H; right; exact (IH H)].
Qed.
Lemma mapM_cong {X Y} (f g : X -> option Y) l ys : mapM f l = Some ys -> (forall x y, In x l -> f x = Some y -> g x = Some y) -> mapM g l = Some ys.
Proof.
  revert ys. induction l as [|x l IH]; intros ys H C; [exact H|]. cbn [mapM] in *. destruct (f x) as [y|] eqn:Fx; [|discriminate]. cbn [obind] in *. destruct (mapM f l) as [zs|] eqn:Fl; [|discriminate].
  rewrite (C x y (or_introl eq_refl) Fx). cbn [obind]. rewrite (IH zs eq_refl); [exact H|]. intros x' y' I1. apply C. right. exact I1.
Qed.
Lemma mapM_map2 {X X' Y} (f : X -> option Y) (g : X' -> option Y) (h : X -> X') l ys : mapM f l = Some ys -> (forall x y, In x l -> f x = Some y -> g (h x) = Some y) -> mapM g (map h l) = Some ys.
Proof.
  revert ys. induction l as [|x l IH]; intros ys H C; [exact H|]. cbn [mapM map] in *. destruct (f x) as [y|] eqn:Fx; [|discriminate]. cbn [obind] in *. destruct (mapM f l) as [zs|] eqn:Fl; [|discriminate].
  rewrite (C x y (or_introl eq_refl) Fx). cbn [obind]. rewrite (IH zs eq_refl); [exact H|]. intros x' y' I1. apply C. right. exact I1.
Qed.
Lemma mapM_app2 {X Y} (f : X -> option Y) l k xs ys : mapM f l = Some xs -> mapM f k = Some ys -> mapM f (l ++ k) = Some (xs ++ ys).
Proof.
  revert xs. induction l as [|x l IH]; intros xs; cbn [mapM app].
  - intros [= <-] H. exact H.
  - destruct (f x) as [y|]; [|discriminate]. cbn [obind]. destruct (mapM f l) as [zs|] eqn:E; [|discriminate]. cbn. intros [= <-] H. rewrite (IH zs eq_refl H). reflexivity.
Qed.
Lemma mapM_cons2 {X Y} (f : X -> option Y) x l y ys : f x = Some y -> mapM f l = Some ys -> mapM f (x :: l) = Some (y :: ys).
Proof. intros H1 H2. cbn [mapM]. rewrite H1. cbn [obind]. rewrite H2. reflexivity. Qed.
Lemma mapM_len {X Y} (f : X -> option Y) l ys : mapM f l = Some ys -> List.length ys = List.length l.
Proof. revert ys. induction l as [|x l IH]; intros ys; cbn [mapM]; [intros [= <-]; reflexivity|]. destruct (f x); [|discriminate]. cbn [obind]. destruct (mapM f l) as [zs|]; [|discriminate]. intros [= <-]. cbn. f_equal. apply IH. reflexivity. Qed.
Lemma mapM_firstn {X Y} (f : X -> option Y) i l ys : mapM f l = Some ys -> mapM f (firstn i l) = Some (firstn i ys) /\ mapM f (skipn i l) = Some (skipn i ys).
Proof.
  revert i ys. induction l as [|x l IH]; intros i ys H.
  - injection H as <-. destruct i; split; reflexivity.
  - destruct i as [|i]; [split; [reflexivity|exact H]|]. cbn [mapM] in H. destruct (f x) as [y|] eqn:Fx; [|discriminate]. cbn [obind] in H. destruct (mapM f l) as [zs|] eqn:E; [|discriminate]. cbn in H. injection H as <-.
    destruct (IH i zs eq_refl) as [X1 X2]. cbn [firstn skipn mapM]. rewrite Fx. cbn [obind]. rewrite X1. split; [reflexivity|exact X2].
Qed.
Lemma mapM_in {X Y} (f : X -> option Y) l ys : mapM f l = Some ys -> forall y, In y ys -> exists x, In x l /\ f x = Some y.
Proof.
  revert ys. induction l as [|x l IH]; intros ys; cbn [mapM]; [intros [= <-] y []|]. destruct (f x) as [y|] eqn:Fx; [|discriminate]. cbn [obind]. destruct (mapM f l) as [zs|]; [|discriminate]. intros [= <-] y' [->|I1]; [exists x; split; [left; reflexivity|exact Fx]|].
  destruct (IH zs eq_refl y' I1) as (x' & I2 & H). exists x'. split; [right; exact I2|exact H].
Qed.
Lemma mapM_some {X Y} (f : X -> option Y) l ys : mapM f l = Some ys -> forall x, In x l -> f x <> None.
Proof.
  revert ys. induction l as [|x l IH]; intros ys; cbn [mapM]; [intros _ x []|]. destruct (f x) as [y|] eqn:Fx; [|discriminate]. cbn [obind]. destruct (mapM f l) as [zs|]; [|discriminate]. intros _ x' [<-|I1]; [congruence|]. exact (IH zs eq_refl x' I1).
Qed.
Lemma set_nth_split {X} i (x : X) l : i < List.length l -> set_nth i x l = firstn i l ++ x :: skipn (S i) l.
Proof. revert i. induction l as [|y l IH]; intros i H; [cbn in H; lia|]. destruct i as [|i]; [reflexivity|]. cbn [set_nth firstn skipn app]. f_equal. apply IH. cbn in H. lia. Qed.

Section Step.
Context {D : Type} (computes : nat -> list (arg D) -> option (datum D * (nat -> list (datum D)))) (n : nat).
Definition ok (m : memory D) (x : rt D) : Prop := match x with Ref a => m a <> None | Val _ => True end.
Lemma ok_upd m a xs x : ok m x -> ok (upd m a xs) x.
Proof. destruct x as [d|b]; [trivial|]. cbn. intros H. unfold upd. destruct (b =? a); [discriminate|exact H]. Qed.
Definition sound (e : env D) (m : memory D) : Prop := (forall k x, e k = Some x -> k < n /\ ok m x) /\ (forall a xs, m a = Some xs -> a < n /\ Forall (ok m) xs).
Lemma sound_mem e m a xs : sound e m -> a < n -> Forall (ok m) xs -> sound e (upd m a xs).
Proof.
  intros [H1 H2] B F. split.
  - intros k x Hk. destruct (H1 k x Hk) as [X Y]. split; [exact X|apply ok_upd; exact Y].
  - intros b ys. unfold upd at 1. destruct (Nat.eqb_spec b a) as [->|N].
    + intros [= <-]. split; [exact B|]. apply Forall_forall. intros x Ix. apply ok_upd. exact (proj1 (Forall_forall _ _) F x Ix).
    + intros Hb. destruct (H2 b ys Hb) as [X Y]. split; [exact X|]. apply Forall_forall. intros x Ix. apply ok_upd. exact (proj1 (Forall_forall _ _) Y x Ix).
Qed.
Lemma sound_env e m r x : sound e m -> r < n -> ok m x -> sound (upd e r x) m.
Proof. intros [H1 H2] B F. split; [|exact H2]. intros k y. unfold upd. destruct (Nat.eqb_spec k r) as [->|N]; [intros [= <-]; split; assumption|apply H1]. Qed.
Lemma list_at_some e (m : memory D) v a xs : list_at e m v = Some (a, xs) -> e v = Some (Ref a) /\ m a = Some xs.
Proof. unfold list_at. destruct (e v) as [[d|b]|]; try discriminate. cbn. destruct (m b) as [ys|] eqn:Mb; [|discriminate]. cbn. intros [= <- <-]. split; [reflexivity|exact Mb]. Qed.
Lemma write_keeps (e : env D) news : forall fs i m, sound e m -> (forall f, In f fs -> fetch e m (snd f) <> None) -> sound e (write e news i fs m) /\ (forall a, m a = None -> write e news i fs m a = None).
Proof.
  assert (Fe : forall m v, fetch e m v <> None -> match e v with Some (Ref a) => m a <> None | _ => True end).
  { intros m v. unfold fetch. destruct (e v) as [[d|a]|]; try (intros _; exact Logic.I). cbn. intros H Z. rewrite Z in H. apply H. reflexivity. }
  assert (G : forall fs i m, sound e m -> (forall f, In f fs -> match e (snd f) with Some (Ref a) => m a <> None | _ => True end) -> sound e (write e news i fs m) /\ (forall a, m a = None -> write e news i fs m a = None)).
  { induction fs as [|[b v] fs IH]; intros i m So Hf; cbn [write]; [split; [exact So|trivial]|]. pose proof (Hf (b, v) (or_introl eq_refl)) as Hv. cbn [snd] in Hv.
    destruct b; [|apply IH; [exact So|intros f I1; apply Hf; right; exact I1]]. destruct (e v) as [[d|a]|] eqn:Ev; try (apply IH; [exact So|intros f I1; apply Hf; right; exact I1]).
    assert (So2 : sound e (upd m a (map Val (news i)))). { apply sound_mem; [exact So| |apply Forall_forall; intros x Ix; apply in_map_iff in Ix; destruct Ix as (d & <- & _); exact Logic.I]. destruct (m a) as [xs|] eqn:Ma; [exact (proj1 (proj2 So a xs Ma))|contradiction]. }
    destruct (IH (S i) _ So2) as [X Y]. { intros f I1. specialize (Hf f (or_intror I1)). destruct (e (snd f)) as [[d|b]|]; try exact Logic.I. unfold upd. destruct (b =? a); [discriminate|exact Hf]. }
    split; [exact X|]. intros b Hb. apply Y. rewrite upd_neq; [exact Hb|]. intros ->. contradiction. }
  intros fs i m So Hf. apply G; [exact So|]. intros f I1. apply Fe. exact (Hf f I1).
Qed.
Lemma fresh_step o rest e m e2 m2 : fresh_program (o :: rest) n e m -> step computes o e m = Some (e2, m2) ->
  fresh_program rest n e2 m2 /\ (forall k x, e k = Some x -> e2 k = Some x) /\ (forall k, e2 k <> e k -> In k (result o)) .
Proof.
  intros (ND & Fr & So) H. fold (ok m) in So. assert (So' : sound e m) by (split; [exact (proj1 So)|exact (proj2 So)]). clear So. cbn [flat_map] in *.
  destruct (NoDup_app_inv _ _ _ ND) as (_ & ND2 & Dj).
  assert (Done : forall e2 m2, sound e2 m2 -> (forall k, ~ In k (result o) -> e2 k = e k) -> (forall k, ~ In k (result o) -> m k = None -> m2 k = None) ->
    fresh_program rest n e2 m2 /\ (forall k x, e k = Some x -> e2 k = Some x) /\ (forall k, e2 k <> e k -> In k (result o))).
  { intros e3 m3 S3 E3 M3. split; [|split].
    - split; [exact ND2|]. split; [|exact S3]. intros k Ik. destruct (Fr k (in_or_app _ _ _ (or_intror Ik))) as (X1 & X2 & X3). assert (Nk : ~ In k (result o)) by (intros Z; exact (Dj k Z Ik)). split; [exact X1|]. split; [rewrite (E3 k Nk); exact X2|exact (M3 k Nk X3)].
    - intros k x Hk. rewrite E3; [exact Hk|]. intros Z. destruct (Fr k (in_or_app _ _ _ (or_introl Z))) as (_ & X & _). congruence.
    - intros k Nk. destruct (in_dec Nat.eq_dec k (result o)) as [Z|Z]; [exact Z|]. contradiction (E3 k Z). }
  assert (Res : forall r, In r (result o) -> r < n) by (intros r Ir; exact (proj1 (Fr r (in_or_app _ _ _ (or_introl Ir))))).
  assert (Ch : forall a xs ys, m a = Some xs -> Forall (ok m) ys -> sound e (upd m a ys) /\ forall k, ~ In k (result o) -> m k = None -> upd m a ys k = None).
  { intros a xs ys Ma Fy. split; [apply sound_mem; [exact So'|exact (proj1 (proj2 So' a xs Ma))|exact Fy]|]. intros k _ Mk. rewrite upd_neq; [exact Mk|]. intros ->. congruence. }
  destruct o as [r z|r els|s el u|s i el u|s i el u|r v|r is]; cbn [step result] in *.
  - injection H as <- <-. apply Done; [apply sound_env; [exact So'|apply Res; left; reflexivity|exact Logic.I]|intros k Nk; apply upd_neq; intros ->; apply Nk; left; reflexivity|trivial].
  - destruct (mapM e els) as [xs|] eqn:Mx; [|discriminate]. cbn in H. injection H as <- <-. assert (Br : r < n) by (apply Res; left; reflexivity). apply Done.
    + apply sound_env; [apply sound_mem; [exact So'|exact Br|]|exact Br|cbn; rewrite upd_eq; discriminate]. apply Forall_forall. intros x Ix. destruct (mapM_in _ _ _ Mx x Ix) as (v & _ & Hv). exact (proj2 (proj1 So' v x Hv)).
    + intros k Nk. apply upd_neq. intros ->. apply Nk. left. reflexivity.
    + intros k Nk Mk. rewrite upd_neq; [exact Mk|]. intros ->. apply Nk. left. reflexivity.
  - destruct (list_at e m s) as [[a xs]|] eqn:La; [|discriminate]. apply list_at_some in La. destruct La as [_ Ma]. cbn [obind] in H. destruct (e el) as [x|] eqn:Ex; [|discriminate]. cbn in H. injection H as <- <-.
    destruct (Ch a xs (xs ++ [x]) Ma) as [C1 C2]; [apply Forall_app; split; [exact (proj2 (proj2 So' a xs Ma))|constructor; [exact (proj2 (proj1 So' el x Ex))|constructor]]|]. apply Done; [exact C1|trivial|exact C2].
  - destruct (list_at e m s) as [[a xs]|] eqn:La; [|discriminate]. apply list_at_some in La. destruct La as [_ Ma]. cbn [obind] in H. destruct (int_at e i) as [z|]; [|discriminate]. cbn [obind] in H. destruct (e el) as [x|] eqn:Ex; [|discriminate]. cbn in H. injection H as <- <-.
    set (p := insert_position z (List.length xs)). pose proof (proj2 (proj2 So' a xs Ma)) as Fx. rewrite <- (firstn_skipn p xs) in Fx. apply Forall_app in Fx. destruct Fx as [F1 F2].
    destruct (Ch a xs (firstn p xs ++ x :: skipn p xs) Ma) as [C1 C2]; [apply Forall_app; split; [exact F1|constructor; [exact (proj2 (proj1 So' el x Ex))|exact F2]]|]. apply Done; [exact C1|trivial|exact C2].
  - destruct (list_at e m s) as [[a xs]|] eqn:La; [|discriminate]. apply list_at_some in La. destruct La as [_ Ma]. cbn [obind] in H. destruct (int_at e i) as [z|]; [|discriminate]. cbn [obind] in H. destruct (e el) as [x|] eqn:Ex; [|discriminate]. cbn [obind] in H.
    set (p := if (z <? 0)%Z then (z + Z.of_nat (List.length xs))%Z else z) in *. destruct ((0 <=? p) && (p <? Z.of_nat (List.length xs)))%Z; [|discriminate]. injection H as <- <-.
    pose proof (proj2 (proj2 So' a xs Ma)) as Fx. assert (F1 : Forall (ok m) (firstn (Z.to_nat p) xs)) by (rewrite <- (firstn_skipn (Z.to_nat p) xs) in Fx; apply Forall_app in Fx; exact (proj1 Fx)).
    assert (F2 : Forall (ok m) (skipn (S (Z.to_nat p)) xs)) by (rewrite <- (firstn_skipn (S (Z.to_nat p)) xs) in Fx; apply Forall_app in Fx; exact (proj2 Fx)).
    destruct (Ch a xs (firstn (Z.to_nat p) xs ++ x :: skipn (S (Z.to_nat p)) xs) Ma) as [C1 C2]; [apply Forall_app; split; [exact F1|constructor; [exact (proj2 (proj1 So' el x Ex))|exact F2]]|]. apply Done; [exact C1|trivial|exact C2].
  - destruct (e v) as [x|] eqn:Ev; [|discriminate]. cbn in H. injection H as <- <-. apply Done; [apply sound_env; [exact So'|apply Res; left; reflexivity|exact (proj2 (proj1 So' v x Ev))]|intros k Nk; apply upd_neq; intros ->; apply Nk; left; reflexivity|trivial].
  - destruct (mapM (fun f => fetch e m (snd f)) (flags is)) as [args|] eqn:Fa; [|discriminate]. cbn [obind] in H. destruct (computes r args) as [[d news]|]; [|discriminate]. cbn in H. injection H as <- <-.
    destruct (write_keeps e news (flags is) 0 m So' (mapM_some _ _ _ Fa)) as [W1 W2]. apply Done; [apply sound_env; [exact W1|apply Res; left; reflexivity|exact Logic.I]|intros k Nk; apply upd_neq; intros ->; apply Nk; left; reflexivity|intros k _; apply W2].
Qed.

(** ** One step of the old and the new program *)
Context (l : value).
Record rel (cur : value) (e : env D) (m : memory D) (e' : env D) (m' : memory D) : Prop := {
  r_env : forall v, v < n -> v <> l -> e' v = e v;
  r_l : e l = Some (Ref l);
  r_small : l < n;
  r_cur : e' cur = Some (Ref cur);
  r_big : n <= cur;
  r_mem : forall a, a < n -> a <> l -> m' a = m a;
  r_list : m' cur = m l;
  r_only : forall v, e v = Some (Ref l) -> v = l;
  r_none : forall a xs, m a = Some xs -> ~ In (Ref l) xs }.
Lemma look cur e m e' m' v x : rel cur e m e' m' -> sound e m -> e v = Some x -> (v = l /\ x = Ref l /\ e' (swap l cur v) = Some (Ref cur)) \/ (v <> l /\ x <> Ref l /\ e' (swap l cur v) = Some x).
Proof.
  intros R [So _] H. destruct (Nat.eq_dec v l) as [->|N].
  - left. rewrite (r_l _ _ _ _ _ R) in H. injection H as <-. rewrite swap_l. repeat split. exact (r_cur _ _ _ _ _ R).
  - right. split; [exact N|]. split; [intros ->; exact (N (r_only _ _ _ _ _ R v H))|]. rewrite (swap_other _ _ _ N), (r_env _ _ _ _ _ R v (proj1 (So v x H)) N). exact H.
Qed.
Lemma rel_put cur e m e' m' a xs : rel cur e m e' m' -> a < n -> a <> l -> ~ In (Ref l) xs -> rel cur e (upd m a xs) e' (upd m' a xs).
Proof.
  intros R B N I1. pose proof (r_big _ _ _ _ _ R). pose proof (r_small _ _ _ _ _ R). constructor; try apply R.
  - intros b Bb Nb. unfold upd. destruct (b =? a); [reflexivity|]. exact (r_mem _ _ _ _ _ R b Bb Nb).
  - rewrite !upd_neq by lia. exact (r_list _ _ _ _ _ R).
  - intros b ys. unfold upd. destruct (b =? a); [intros [= <-]; exact I1|apply (r_none _ _ _ _ _ R)].
Qed.
Lemma rel_put_l cur e m e' m' xs : rel cur e m e' m' -> ~ In (Ref l) xs -> rel cur e (upd m l xs) e' (upd m' cur xs).
Proof.
  intros R I1. pose proof (r_big _ _ _ _ _ R). pose proof (r_small _ _ _ _ _ R). constructor; try apply R.
  - intros b Bb Nb. rewrite !upd_neq by lia. exact (r_mem _ _ _ _ _ R b Bb Nb).
  - rewrite !upd_eq. reflexivity.
  - intros b ys. unfold upd. destruct (b =? l); [intros [= <-]; exact I1|apply (r_none _ _ _ _ _ R)].
Qed.
Lemma rel_bind cur e m e' m' r x : rel cur e m e' m' -> r < n -> r <> l -> x <> Ref l -> rel cur (upd e r x) m (upd e' r x) m'.
Proof.
  intros R B N Nx. pose proof (r_big _ _ _ _ _ R). constructor; try apply R.
  - intros v Bv Nv. unfold upd. destruct (v =? r); [reflexivity|]. exact (r_env _ _ _ _ _ R v Bv Nv).
  - rewrite upd_neq by congruence. exact (r_l _ _ _ _ _ R).
  - rewrite upd_neq by lia. exact (r_cur _ _ _ _ _ R).
  - intros v. unfold upd. destruct (v =? r); [intros [= ->]; contradiction|apply (r_only _ _ _ _ _ R)].
Qed.
Lemma list_at_rel cur e m e' m' v a xs : rel cur e m e' m' -> sound e m -> list_at e m v = Some (a, xs) ->
  exists a', list_at e' m' (swap l cur v) = Some (a', xs) /\ ~ In (Ref l) xs /\ forall ys, ~ In (Ref l) ys -> rel cur e (upd m a ys) e' (upd m' a' ys).
Proof.
  intros R So H. apply list_at_some in H. destruct H as [Ev Ma]. unfold list_at. assert (Nx := r_none _ _ _ _ _ R a xs Ma). destruct (look _ _ _ _ _ _ _ R So Ev) as [(-> & [= ->] & E')|(N & Nr & E')]; rewrite E'; cbn [obind].
  - rewrite (r_list _ _ _ _ _ R), Ma. exists cur. split; [reflexivity|]. split; [exact Nx|]. intros ys Ny. apply rel_put_l; assumption.
  - assert (Na : a <> l) by (intros ->; apply Nr; reflexivity). assert (Ba : a < n) by (exact (proj1 (proj2 So a xs Ma))). rewrite (r_mem _ _ _ _ _ R a Ba Na), Ma. exists a. split; [reflexivity|]. split; [exact Nx|]. intros ys Ny. apply rel_put; assumption.
Qed.
Lemma fetch_rel cur e m e' m' v x : rel cur e m e' m' -> sound e m -> fetch e m v = Some x -> fetch e' m' (swap l cur v) = Some x.
Proof.
  intros R So. unfold fetch. destruct (e v) as [y|] eqn:Ev; [|discriminate]. cbn [obind]. intros H. destruct (look _ _ _ _ _ _ _ R So Ev) as [(-> & -> & E')|(N & Nr & E')]; rewrite E'; cbn [obind].
  - rewrite (r_list _ _ _ _ _ R). exact H.
  - destruct y as [d|a]; [exact H|]. destruct (m a) as [xs|] eqn:Ma; [|discriminate]. assert (Na : a <> l) by (intros ->; apply Nr; reflexivity). rewrite (r_mem _ _ _ _ _ R a (proj1 (proj2 So a xs Ma)) Na), Ma. exact H.
Qed.
Lemma write_rel cur e e' news : forall fs i m m', rel cur e m e' m' -> sound e m -> (forall f, In f fs -> e (snd f) <> None) -> (forall f a, In f fs -> e (snd f) = Some (Ref a) -> m a <> None) ->
  rel cur e (write e news i fs m) e' (write e' news i (map (fun f => (fst f, swap l cur (snd f))) fs) m').
Proof.
  induction fs as [|[b v] fs IH]; intros i m m' R So Hf Hm; cbn [write map fst snd]; [exact R|]. pose proof (Hf (b, v) (or_introl eq_refl)) as Hv. cbn [snd] in Hv. destruct (e v) as [x|] eqn:Ev; [|contradiction].
  assert (Hf2 : forall f, In f fs -> e (snd f) <> None) by (intros f I1; apply Hf; right; exact I1). assert (Hm2 : forall f a, In f fs -> e (snd f) = Some (Ref a) -> m a <> None) by (intros f a I1; apply Hm; right; exact I1).
  assert (Nv : ~ In (Ref l) (map Val (news i))) by (intros Z; apply in_map_iff in Z; destruct Z as (d & Z & _); discriminate Z).
  destruct (look _ _ _ _ _ _ _ R So Ev) as [(-> & -> & E')|(N & Nr & E')]; rewrite E'; destruct b; try (destruct x); try (apply IH; assumption).
  - assert (Ml : m l <> None) by exact (Hm (true, l) l (or_introl eq_refl) Ev). apply IH; [apply rel_put_l; assumption| |exact Hf2|].
    + apply sound_mem; [exact So|exact (r_small _ _ _ _ _ R)|]. apply Forall_forall. intros x Ix. apply in_map_iff in Ix. destruct Ix as (d & <- & _). exact Logic.I.
    + intros f a I1 Ha. unfold upd. destruct (a =? l); [discriminate|]. exact (Hm2 f a I1 Ha).
  - assert (Ma : m a <> None) by exact (Hm (true, v) a (or_introl eq_refl) Ev). assert (Na : a <> l) by (intros ->; apply Nr; reflexivity). destruct (m a) as [xs|] eqn:Ema; [|contradiction]. pose proof (proj1 (proj2 So a xs Ema)) as Ba. apply IH; [apply rel_put; assumption| |exact Hf2|].
    + apply sound_mem; [exact So|exact Ba|]. apply Forall_forall. intros x Ix. apply in_map_iff in Ix. destruct Ix as (d & <- & _). exact Logic.I.
    + intros f b I1 Ha. unfold upd. destruct (b =? a); [discriminate|]. exact (Hm2 f b I1 Ha).
Qed.
Lemma flags_rename cur is : flags (map (fun i => {| nested := nested i; mutates := mutates i; operands := map (swap l cur) (operands i) |}) is) = map (fun f => (fst f, swap l cur (snd f))) (flags is).
Proof. unfold flags. induction is as [|i is IH]; [reflexivity|]. cbn [map flat_map mutates operands]. rewrite IH, map_app, !map_map. reflexivity. Qed.
Lemma step_rel cur o rest e m e' m' e2 m2 : rel cur e m e' m' -> fresh_program (o :: rest) n e m -> ~ In l (result o) -> ~ holds l o -> step computes o e m = Some (e2, m2) ->
  exists e2' m2', step computes (rename_op l cur o) e' m' = Some (e2', m2') /\ rel cur e2 m2 e2' m2'.
Proof.
  intros R (ND & Fr & So1) Nr Nh H. assert (So : sound e m) by (split; [exact (proj1 So1)|exact (proj2 So1)]). clear So1. cbn [flat_map] in Fr.
  assert (Res : forall r, In r (result o) -> r < n /\ r <> l) by (intros r Ir; split; [exact (proj1 (Fr r (in_or_app _ _ _ (or_introl Ir))))|intros ->; contradiction]).
  assert (Look : forall v x, v <> l -> e v = Some x -> e' v = Some x /\ x <> Ref l). { intros v x N Hv. destruct (look _ _ _ _ _ _ _ R So Hv) as [(Z & _)|(_ & Nx & E')]; [contradiction|]. rewrite (swap_other _ _ _ N) in E'. split; assumption. }
  assert (Sub : forall k (xs : list (rt D)), ~ In (Ref l) xs -> ~ In (Ref l) (firstn k xs) /\ ~ In (Ref l) (skipn k xs)).
  { intros k xs Nx. split; intros Z; apply Nx; rewrite <- (firstn_skipn k xs); apply in_or_app; [left|right]; exact Z. }
  destruct o as [r z|r els|s el u|s i el u|s i el u|r v|r is]; cbn [step result rename_op holds] in *.
  - injection H as <- <-. destruct (Res r (or_introl eq_refl)) as [B N]. eexists; eexists. split; [reflexivity|]. apply rel_bind; try assumption. discriminate.
  - destruct (mapM e els) as [xs|] eqn:Mx; [|discriminate]. cbn in H. injection H as <- <-. destruct (Res r (or_introl eq_refl)) as [B N]. rewrite (swap_map _ _ _ Nh).
    assert (Mx' : mapM e' els = Some xs). { apply (mapM_cong _ _ _ _ Mx). intros v x I1 Hv. apply Look; [|exact Hv]. intros ->. contradiction. }
    rewrite Mx'. cbn [obind]. eexists; eexists. split; [reflexivity|]. apply rel_bind; try assumption; [|intros [= ->]; contradiction]. apply rel_put; try assumption.
    intros Z. destruct (mapM_in _ _ _ Mx _ Z) as (v & Iv & Hv). apply Nh. rewrite <- (r_only _ _ _ _ _ R v Hv). exact Iv.
  - destruct (list_at e m s) as [[a xs]|] eqn:La; [|discriminate]. cbn [obind] in H. destruct (e el) as [x|] eqn:Ex; [|discriminate]. cbn in H. injection H as <- <-.
    destruct (list_at_rel _ _ _ _ _ _ _ _ R So La) as (a' & L' & Nx & Ch). rewrite L', (swap_other _ _ _ Nh). destruct (Look _ _ Nh Ex) as [Ex' Nl]. cbn [obind]. rewrite Ex'. cbn [obind]. eexists; eexists. split; [reflexivity|]. apply Ch.
    intros Z. apply in_app_or in Z. destruct Z as [Z|[Z|[]]]; [exact (Nx Z)|exact (Nl Z)].
  - destruct (list_at e m s) as [[a xs]|] eqn:La; [|discriminate]. cbn [obind] in H. unfold int_at in *. destruct (e i) as [[[z|d]|b]|] eqn:Ei; try discriminate. cbn [obind] in H. destruct (e el) as [x|] eqn:Ex; [|discriminate]. cbn in H. injection H as <- <-.
    destruct (list_at_rel _ _ _ _ _ _ _ _ R So La) as (a' & L' & Nx & Ch). assert (N1 : el <> l) by tauto. assert (N2 : i <> l) by tauto. rewrite L', (swap_other _ _ _ N1), (swap_other _ _ _ N2). destruct (Look _ _ N1 Ex) as [Ex' Nl]. destruct (Look _ _ N2 Ei) as [Ei' _]. cbn [obind]. rewrite Ei'. cbn [obind]. rewrite Ex'. cbn [obind]. eexists; eexists. split; [reflexivity|]. apply Ch.
    destruct (Sub (insert_position z (List.length xs)) xs Nx) as [S1 S2]. intros Z. apply in_app_or in Z. destruct Z as [Z|[Z|Z]]; [exact (S1 Z)|exact (Nl Z)|exact (S2 Z)].
  - destruct (list_at e m s) as [[a xs]|] eqn:La; [|discriminate]. cbn [obind] in H. unfold int_at in *. destruct (e i) as [[[z|d]|b]|] eqn:Ei; try discriminate. cbn [obind] in H. destruct (e el) as [x|] eqn:Ex; [|discriminate]. cbn [obind] in H.
    destruct (list_at_rel _ _ _ _ _ _ _ _ R So La) as (a' & L' & Nx & Ch). assert (N1 : el <> l) by tauto. assert (N2 : i <> l) by tauto. rewrite L', (swap_other _ _ _ N1), (swap_other _ _ _ N2). destruct (Look _ _ N1 Ex) as [Ex' Nl]. destruct (Look _ _ N2 Ei) as [Ei' _]. cbn [obind]. rewrite Ei'. cbn [obind]. rewrite Ex'. cbn [obind].
    set (p := if (z <? 0)%Z then (z + Z.of_nat (List.length xs))%Z else z) in *. destruct ((0 <=? p) && (p <? Z.of_nat (List.length xs)))%Z; [|discriminate]. injection H as <- <-. eexists; eexists. split; [reflexivity|]. apply Ch.
    destruct (Sub (Z.to_nat p) xs Nx) as [S1 _]. destruct (Sub (S (Z.to_nat p)) xs Nx) as [_ S2]. intros Z. apply in_app_or in Z. destruct Z as [Z|[Z|Z]]; [exact (S1 Z)|exact (Nl Z)|exact (S2 Z)].
  - destruct (e v) as [x|] eqn:Ev; [|discriminate]. cbn in H. injection H as <- <-. destruct (Res r (or_introl eq_refl)) as [B N]. assert (Nv : v <> l) by exact Nh. rewrite (swap_other _ _ _ Nv). destruct (Look _ _ Nv Ev) as [Ev' Nx]. rewrite Ev'. cbn [obind]. eexists; eexists. split; [reflexivity|]. apply rel_bind; assumption.
  - destruct (mapM (fun f => fetch e m (snd f)) (flags is)) as [args|] eqn:Fa; [|discriminate]. cbn [obind] in H. destruct (computes r args) as [[d news]|] eqn:Cp; [|discriminate]. cbn in H. injection H as <- <-. destruct (Res r (or_introl eq_refl)) as [B N].
    rewrite flags_rename. rewrite (mapM_map2 _ (fun f => fetch e' m' (snd f)) (fun f => (fst f, swap l cur (snd f))) _ _ Fa); [|intros f x I1 Hx; cbn [snd]; exact (fetch_rel _ _ _ _ _ _ _ R So Hx)]. cbn [obind]. rewrite Cp. cbn [obind]. eexists; eexists. split; [reflexivity|].
    apply rel_bind; try assumption; [|discriminate]. apply write_rel; [exact R|exact So| |].
    + intros [b v] I1 Z. cbn [snd] in Z. pose proof (mapM_some _ _ _ Fa _ I1) as Q. cbn [snd] in Q. apply Q. unfold fetch. rewrite Z. reflexivity.
    + intros [b v] a I1 Ha Z. cbn [snd] in Ha. pose proof (mapM_some _ _ _ Fa _ I1) as Q. cbn [snd] in Q. apply Q. unfold fetch. rewrite Ha. cbn. rewrite Z. reflexivity.
Qed.
End Step.

(** ** The whole list *)
Lemma redirect_inners_k l cur : forall is k, snd (redirect_inners l k cur is) = k - List.length (filter (fun i => has l (operands i)) is).
Proof.
  induction is as [|i is IH]; intros k; cbn [redirect_inners filter]; [cbn; lia|]. destruct k as [|k]; [cbn; lia|]. destruct (has l (operands i)).
  - specialize (IH k). destruct (redirect_inners l k cur is) as [is' k2]. cbn [snd List.length] in *. lia.
  - specialize (IH (S k)). destruct (redirect_inners l (S k) cur is) as [is' k2]. cbn [snd] in *. exact IH.
Qed.
Lemma redirect_inners_rename l cur last : cur <> l -> forall is k, (snd (redirect_inners l k cur is) = 0 -> last = cur) ->
  map (fun i => {| nested := nested i; mutates := mutates i; operands := map (swap l last) (operands i) |}) (fst (redirect_inners l k cur is)) =
  map (fun i => {| nested := nested i; mutates := mutates i; operands := map (swap l cur) (operands i) |}) is.
Proof.
  intros N. induction is as [|i is IH]; intros k H; cbn [redirect_inners] in *; [reflexivity|]. destruct k as [|k]; [cbn [snd fst] in *; rewrite (H eq_refl); reflexivity|]. destruct (has l (operands i)) eqn:Hi.
  - specialize (IH k). destruct (redirect_inners l k cur is) as [is' k2]. cbn [snd fst map nested mutates operands] in *. rewrite (IH H). f_equal. f_equal. rewrite map_map. apply map_ext. intros v. apply swap_swap. exact N.
  - specialize (IH (S k)). destruct (redirect_inners l (S k) cur is) as [is' k2]. cbn [snd fst map nested mutates operands] in *. rewrite (IH H). f_equal. f_equal. apply has_false in Hi. rewrite !swap_map by exact Hi. reflexivity.
Qed.
Lemma rewrite_zero l lits cur : forall post next, rewrite l 0 lits cur next post = Some (post, cur).
Proof.
  induction post as [|o post IH]; intros next; cbn [rewrite]; [reflexivity|].
  assert (Rd : redirect l 0 cur o = (o, 0)). { destruct o; try reflexivity. cbn [redirect]. destruct inners; reflexivity. }
  destruct (changed o); [destruct (users l o)|]; rewrite Rd, IH; reflexivity.
Qed.
Lemma inner_users l is : flat_map (fun i => if has l (operands i) then [UInner (nested i) (mutates i)] else []) is = map (fun i => UInner (nested i) (mutates i)) (filter (fun i => has l (operands i)) is).
Proof. induction is as [|i is IH]; [reflexivity|]. cbn [flat_map filter]. rewrite IH. destruct (has l (operands i)); reflexivity. Qed.
Lemma literals_inners prog l running us : forall is, literals prog l running (map (fun i => UInner (nested i) (mutates i)) is ++ us) = if existsb mutates is then Some ([], false) else literals prog l running us.
Proof. induction is as [|i is IH]; [reflexivity|]. cbn [map app literals existsb]. destruct (mutates i); [reflexivity|exact IH]. Qed.
Section Whole.
Context {D : Type} (computes : nat -> list (arg D) -> option (datum D * (nat -> list (datum D)))) (n : nat) (l : value) (prog : list op) (UD : NoDup (flat_map result prog)).
Definition ints (e : env D) : Prop := forall v z x, In (Int v z) prog -> e v = Some x -> x = Val (inl z).
Lemma unique_result o1 o2 r : In o1 prog -> In o2 prog -> In r (result o1) -> In r (result o2) -> o1 = o2.
Proof.
  revert UD. induction prog as [|o p IH]; intros U I1 I2 R1 R2; [destruct I1|]. cbn [flat_map] in U. destruct (NoDup_app_inv _ _ _ U) as (_ & U2 & Dj).
  assert (Z : forall o', In o' p -> In r (result o') -> In r (flat_map result p)) by (intros o' I3 R3; apply in_flat_map; exists o'; split; assumption).
  destruct I1 as [<-|I1], I2 as [<-|I2]; [reflexivity| | |exact (IH U2 I1 I2 R1 R2)]; exfalso.
  - exact (Dj r R1 (Z o2 I2 R2)).
  - exact (Dj r R2 (Z o1 I1 R1)).
Qed.
Lemma ints_step o rest e m e2 m2 : In o prog -> fresh_program (o :: rest) n e m -> ints e -> step computes o e m = Some (e2, m2) -> ints e2.
Proof.
  intros Io F In0 H v z x Iv Hx. destruct (fresh_step computes n o rest e m e2 m2 F H) as (_ & _ & Ch).
  destruct (in_dec Nat.eq_dec v (result o)) as [Z|Z].
  - assert (E : o = Int v z) by (apply (unique_result o (Int v z) v Io Iv Z); left; reflexivity). subst o. cbn in H. injection H as <- _. rewrite upd_eq in Hx. injection Hx as <-. reflexivity.
  - apply (In0 v z x Iv). destruct (e2 v) as [y|] eqn:E2; [|discriminate]. injection Hx as ->. destruct (e v) as [y|] eqn:E1.
    + destruct (fresh_step computes n o rest e m e2 m2 F H) as (_ & Kp & _). rewrite (Kp _ _ E1) in E2. exact E2.
    + exfalso. apply Z. apply Ch. congruence.
Qed.
Definition matches (cur : value) (e2 : env D) (m2 : memory D) (e2' : env D) (m2' : memory D) : Prop :=
  (forall v, v < n -> v <> l -> e2' v = e2 v) /\ (forall a, a < n -> a <> l -> m2' a = m2 a) /\ e2' cur = Some (Ref cur) /\ m2' cur = m2 l.
Lemma sim_tail cur : forall post e m e' m' e2 m2, fresh_program post n e m -> ~ In l (flat_map result post) -> (forall o, In o post -> ~ holds l o) -> rel n l cur e m e' m' ->
  run computes post e m = Some (e2, m2) -> exists e2' m2', run computes (map (rename_op l cur) post) e' m' = Some (e2', m2') /\ matches cur e2 m2 e2' m2'.
Proof.
  induction post as [|o post IH]; intros e m e' m' e2 m2 F Nl Nh R H; cbn [run map flat_map] in *.
  - injection H as <- <-. exists e', m'. split; [reflexivity|]. split; [exact (r_env _ _ _ _ _ _ _ R)|]. split; [exact (r_mem _ _ _ _ _ _ _ R)|]. split; [exact (r_cur _ _ _ _ _ _ _ R)|exact (r_list _ _ _ _ _ _ _ R)].
  - destruct (step computes o e m) as [[e1 m1]|] eqn:S1; [|discriminate]. cbn [obind] in H.
    destruct (step_rel computes n l cur o post e m e' m' e1 m1 R F) as (e1' & m1' & S2 & R2); [intros Z; apply Nl; apply in_or_app; left; exact Z|apply Nh; left; reflexivity|exact S1|].
    rewrite S2. cbn [obind]. destruct (fresh_step computes n o post e m e1 m1 F S1) as (F2 & _ & _). apply (IH e1 m1 e1' m1' e2 m2 F2); [intros Z; apply Nl; apply in_or_app; right; exact Z|intros o' I1; apply Nh; right; exact I1|exact R2|exact H].
Qed.
Lemma rename_none last o : ~ holds l o -> users l o = [] -> rename_op l last o = o.
Proof.
  intros Nh U. destruct o as [r z|r els|s el u|s i el u|s i el u|r v|r is]; cbn [rename_op users holds] in *; try reflexivity.
  - rewrite swap_map by exact Nh. reflexivity.
  - destruct (has l [s; el]) eqn:Hh; [discriminate|]. apply has_false in Hh. cbn in Hh. rewrite !swap_other by tauto. reflexivity.
  - destruct (has l [s; i; el]) eqn:Hh; [discriminate|]. apply has_false in Hh. cbn in Hh. rewrite !swap_other by tauto. reflexivity.
  - destruct (has l [s; i; el]) eqn:Hh; [discriminate|]. apply has_false in Hh. cbn in Hh. rewrite !swap_other by tauto. reflexivity.
  - rewrite swap_other by exact Nh. reflexivity.
  - f_equal. rewrite inner_users in U. apply map_eq_nil in U. induction is as [|i is IH]; [reflexivity|]. cbn [filter map] in *. destruct (has l (operands i)) eqn:Hi; [discriminate|]. rewrite (IH U). apply has_false in Hi. rewrite swap_map by exact Hi. destruct i; reflexivity.
Qed.
Lemma redirect_none k cur o : ~ holds l o -> users l o = [] -> redirect l k cur o = (o, k).
Proof.
  intros Nh U. destruct o as [r z|r els|s el u|s i el u|s i el u|r v|r is]; cbn [redirect users holds] in *; try reflexivity; try (destruct k; reflexivity).
  - destruct k; [reflexivity|]. apply has_false in Nh. rewrite Nh. reflexivity.
  - destruct k; [reflexivity|]. destruct (Nat.eqb_spec l v) as [->|N]; [contradiction Nh; reflexivity|reflexivity].
  - rewrite inner_users in U. apply map_eq_nil in U. assert (G : redirect_inners l k cur is = (is, k)). { revert U. induction is as [|i is IH]; intros U; [destruct k; reflexivity|]. cbn [redirect_inners filter] in *. destruct k; [reflexivity|]. destruct (has l (operands i)); [discriminate|]. rewrite (IH U). reflexivity. } rewrite G. reflexivity.
Qed.
(** an operation that leaves the list alone *)
Lemma write_alone (e : env D) news : forall fs i m, (forall v, e v = Some (Ref l) -> v = l) -> (forall f, In f fs -> snd f = l -> fst f = false) -> write e news i fs m l = m l.
Proof.
  induction fs as [|[b v] fs IH]; intros i m O H; cbn [write]; [reflexivity|]. rewrite IH; [|exact O|intros f I1; apply H; right; exact I1]. destruct b; [|reflexivity]. destruct (e v) as [[d|a]|] eqn:Ev; try reflexivity. apply upd_neq. intros <-. specialize (H (true, v) (or_introl eq_refl) (O v Ev)). discriminate H.
Qed.
Lemma sim : forall post k lits cur next running post1 last e m e' m' e2 m2,
  rewrite l k lits cur next post = Some (post1, last) -> incl post prog ->
  Forall (fun u => u <> UInner true true) (firstn k (flat_map (users l) post)) ->
  (lits = [] \/ (exists g, literals prog l running (firstn k (flat_map (users l) post)) = Some (lits, g)) /\ mapM e running = m l /\ ~ In l running) ->
  fresh_program post n e m -> ints e -> ~ In l (flat_map result post) -> (forall o, In o post -> ~ holds l o) -> rel n l cur e m e' m' -> cur < next ->
  run computes post e m = Some (e2, m2) -> exists e2' m2', run computes (map (rename_op l last) post1) e' m' = Some (e2', m2') /\ matches last e2 m2 e2' m2'.
Proof.
  induction post as [|o post IH]; intros k lits cur next running post1 last e m e' m' e2 m2 Rw Ip Nn Md F Ii Nl Nh R Bn H.
  - cbn in Rw. injection Rw as <- <-. exact (sim_tail cur [] e m e' m' e2 m2 F Nl Nh R H).
  - destruct k as [|k]; [rewrite rewrite_zero in Rw; injection Rw as <- <-; exact (sim_tail cur (o :: post) e m e' m' e2 m2 F Nl Nh R H)|].
    cbn [run flat_map] in *. destruct (step computes o e m) as [[e1 m1]|] eqn:S1; [|discriminate]. cbn [obind] in H.
    destruct (fresh_step computes n o post e m e1 m1 F S1) as (F1 & Kp & Ch). assert (Io : In o prog) by (apply Ip; left; reflexivity). assert (Ip2 : incl post prog) by (intros o' I1; apply Ip; right; exact I1).
    pose proof (ints_step o post e m e1 m1 Io F Ii S1) as Ii1. assert (No : ~ holds l o) by (apply Nh; left; reflexivity). assert (Nh2 : forall o', In o' post -> ~ holds l o') by (intros o' I1; apply Nh; right; exact I1).
    assert (Nl1 : ~ In l (result o)) by (intros Z; apply Nl; apply in_or_app; left; exact Z). assert (Nl2 : ~ In l (flat_map result post)) by (intros Z; apply Nl; apply in_or_app; right; exact Z).
    assert (Rn : forall ys, mapM e running = Some ys -> mapM e1 running = Some ys) by (intros ys Hy; apply (mapM_cong _ _ _ _ Hy); intros v x _ Hv; exact (Kp v x Hv)).
    assert (Cl : cur <> l) by (pose proof (r_big _ _ _ _ _ _ _ R); pose proof (r_small _ _ _ _ _ _ _ R); lia).
    destruct (step_rel computes n l cur o post e m e' m' e1 m1 R F Nl1 No S1) as (e1' & m1' & S2 & R1).
    (* an operation that does not use the list *)
    assert (Same : users l o = [] -> m1 l = m l -> exists e2' m2', run computes (map (rename_op l last) post1) e' m' = Some (e2', m2') /\ matches last e2 m2 e2' m2').
    { intros U Ml. assert (Rw2 : (do (rest, last0) <- rewrite l (S k) lits cur next post ; Some (o :: rest, last0)) = Some (post1, last)).
      { cbn [rewrite] in Rw. rewrite U, (redirect_none _ _ _ No U) in Rw. destruct (changed o); exact Rw. }
      clear Rw. rewrite U in *. cbn [app] in *. destruct (rewrite l (S k) lits cur next post) as [[rest last0]|] eqn:Rr; [|discriminate]. cbn [obind] in Rw2. injection Rw2 as <- <-.
      cbn [map run]. rewrite (rename_none _ _ No U). rewrite (rename_none _ _ No U) in S2. rewrite S2. cbn [obind].
      apply (IH (S k) lits cur next running rest last0 e1 m1 e1' m1' e2 m2 Rr Ip2 Nn); try assumption. destruct Md as [Md|(G & Mr & Nr)]; [left; exact Md|right]. split; [exact G|]. split; [|exact Nr]. rewrite Ml. destruct (m l) as [ys|] eqn:My; [exact (Rn ys Mr)|]. exfalso. destruct F as (_ & _ & Fe & _). destruct (Fe l (Ref l) (r_l _ _ _ _ _ _ _ R)) as [_ Z]. congruence. }
    (* an operation that changes the list and is replaced by a construction *)
    assert (Erase : forall lit lits', (exists self, changed o = Some self /\ self = l) -> lits = lit :: lits' -> (exists u, users l o = [u]) -> mapM e1 lit = m1 l -> ~ In l lit -> m1 l <> None -> e1 = e -> (forall a, a <> l -> m1 a = m a) ->
      (forall a xs, m1 a = Some xs -> ~ In (Ref l) xs) -> (exists g, literals prog l lit (firstn k (flat_map (users l) post)) = Some (lits', g)) ->
      exists e2' m2', run computes (map (rename_op l last) post1) e' m' = Some (e2', m2') /\ matches last e2 m2 e2' m2').
    { intros lit lits' (self & Cs & Es) -> (u & U) Ml Nlit Mn Ee Mo Mi G. subst self e1. cbn [rewrite] in Rw. rewrite Cs, U, Nat.eqb_refl in Rw. cbn [app] in Rw. destruct (rewrite l k lits' next (S next) post) as [[rest last0]|] eqn:Rr; [|discriminate]. cbn [obind] in Rw. injection Rw as <- <-.
      pose proof (r_big _ _ _ _ _ _ _ R) as Bc. pose proof (r_small _ _ _ _ _ _ _ R) as Bl. cbn [map run rename_op step]. rewrite (swap_map _ _ _ Nlit).
      destruct (m1 l) as [ys|] eqn:M1l; [|contradiction]. assert (Ml' : mapM e' lit = Some ys). { apply (mapM_cong _ _ _ _ Ml). intros v x Iv Hv. rewrite <- Hv. apply (r_env _ _ _ _ _ _ _ R); [|intros ->; contradiction]. destruct F as (_ & _ & Fe & _). exact (proj1 (Fe v x Hv)). }
      rewrite Ml'. cbn [obind]. rewrite U in Nn. cbn [app firstn] in Nn. inversion Nn as [|? ? Hu Nn2]; subst.
      apply (IH k lits' next (S next) lit rest last0 e m1 (upd e' next (Ref next)) (upd m' next ys) e2 m2 Rr Ip2 Nn2); try assumption; [right; split; [exact G|]; split; [rewrite M1l; exact Ml|exact Nlit]| |lia].
      constructor; try (apply R).
      - intros v Bv Nv. rewrite upd_neq by lia. exact (r_env _ _ _ _ _ _ _ R v Bv Nv).
      - apply upd_eq.
      - lia.
      - intros a Ba Na. rewrite upd_neq by lia. rewrite (Mo a Na). exact (r_mem _ _ _ _ _ _ _ R a Ba Na).
      - rewrite upd_eq, M1l. reflexivity.
      - exact Mi. }
    assert (Mi1 : forall a xs, m1 a = Some xs -> ~ In (Ref l) xs) by (intros a xs; exact (r_none _ _ _ _ _ _ _ R1 a xs)).
    destruct F as (ND & Fr & Fe & Fm).
    destruct o as [r z|r els|s el u|s i el u|s i el u|r v|r is].
    + apply Same; [reflexivity|]. cbn in S1. injection S1 as _ <-. reflexivity.
    + assert (U : users l (Make r els) = []) by (cbn [users]; apply has_false in No; rewrite No; reflexivity). apply (Same U). cbn [step] in S1. destruct (@mapM nat (rt D) e els); [|discriminate]. cbn in S1. injection S1 as _ <-. apply upd_neq. intros <-. apply Nl1. left. reflexivity.
    + cbn [step holds] in *. destruct (list_at e m s) as [[a xs]|] eqn:La; [|discriminate]. apply list_at_some in La. destruct La as [Es Ma]. cbn [obind] in S1. destruct (e el) as [x|] eqn:Ex; [|discriminate]. cbn in S1. injection S1 as Z1 Z2.
      destruct (Nat.eq_dec s l) as [->|N].
      * assert (U : users l (Append l el u) = [UAppend l el u]) by (cbn [users has existsb]; rewrite Nat.eqb_refl; reflexivity). rewrite U in *. cbn [app firstn literals] in *. rewrite (r_l _ _ _ _ _ _ _ R) in Es. injection Es as <-.
        cbn [rewrite changed] in Rw. rewrite U in Rw. destruct lits as [|lit lits']; [discriminate|]. destruct Md as [Md|((g & G) & Mr & Nr)]; [discriminate|]. destruct (negb u); [|discriminate]. cbn [guard obind] in G. rewrite Nat.eqb_refl in G.
        destruct (literals prog l (running ++ [el]) _) as [[ls g']|] eqn:Lg in G; [|discriminate]. cbn in G. injection G as <- <- _. apply (Erase (running ++ [el]) ls); try reflexivity.
        -- exists l. split; reflexivity.
        -- exists (UAppend l el u). reflexivity.
        -- rewrite <- Z2, upd_eq, <- Z1. rewrite Ma in Mr. apply mapM_app2; [exact Mr|]. cbn. rewrite Ex. reflexivity.
        -- intros Z. apply in_app_or in Z. destruct Z as [Z|[Z|[]]]; [exact (Nr Z)|exact (No Z)].
        -- rewrite <- Z2, upd_eq. discriminate.
        -- symmetry. exact Z1.
        -- intros b Nb. rewrite <- Z2. apply upd_neq. exact Nb.
        -- exact Mi1.
        -- eexists. exact Lg.
      * apply Same; [cbn [users]; assert (Hh : has l [s; el] = false) by (apply has_false; cbn; intuition congruence); rewrite Hh; reflexivity|]. rewrite <- Z2. apply upd_neq. intros <-. exact (N (r_only _ _ _ _ _ _ _ R s Es)).
    + cbn [step holds] in *. destruct (list_at e m s) as [[a xs]|] eqn:La; [|discriminate]. apply list_at_some in La. destruct La as [Es Ma]. cbn [obind] in S1. destruct (int_at e i) as [z|] eqn:Iz; [|discriminate]. cbn [obind] in S1. destruct (e el) as [x|] eqn:Ex; [|discriminate]. cbn in S1. injection S1 as Z1 Z2.
      destruct (Nat.eq_dec s l) as [->|N].
      * assert (U : users l (Insert l i el u) = [UInsert l i el u]) by (cbn [users has existsb]; rewrite Nat.eqb_refl; reflexivity). rewrite U in *. cbn [app firstn literals] in *. rewrite (r_l _ _ _ _ _ _ _ R) in Es. injection Es as <-.
        cbn [rewrite changed] in Rw. rewrite U in Rw. destruct lits as [|lit lits']; [discriminate|]. destruct Md as [Md|((g & G) & Mr & Nr)]; [discriminate|]. destruct (negb u); [|discriminate]. cbn [guard obind] in G.
        destruct (const prog i) as [z'|] eqn:Cz; [|discriminate]. cbn [obind] in G. destruct (negb ((z' <? 0) || (Z.of_nat (List.length running) <? z'))%Z) eqn:Rg; [|discriminate]. cbn [guard obind] in G. rewrite Nat.eqb_refl in G.
        destruct (literals prog l (insert_at (Z.to_nat z') el running) _) as [[ls g']|] eqn:Lg in G; [|discriminate]. cbn in G. injection G as <- <- _.
        assert (z = z') as <-. { unfold int_at in Iz. destruct (e i) as [y|] eqn:Ei; [|discriminate]. rewrite (Ii i z' y (const_in _ _ _ Cz) Ei) in Iz. cbn in Iz. congruence. }
        rewrite Ma in Mr. pose proof (mapM_len _ _ _ Mr) as Lx. assert (Ps : insert_position z (List.length xs) = Z.to_nat z). { apply negb_true_iff, orb_false_iff in Rg. destruct Rg as [Q1 Q2]. unfold insert_position. rewrite Q1. apply Z.ltb_ge in Q1. apply Z.ltb_ge in Q2. lia. }
        rewrite Ps in Z2. destruct (mapM_firstn _ (Z.to_nat z) _ _ Mr) as [P1 P2].
        apply (Erase (insert_at (Z.to_nat z) el running) ls); try reflexivity.
        -- exists l. split; reflexivity.
        -- exists (UInsert l i el u). reflexivity.
        -- rewrite <- Z2, upd_eq, <- Z1. apply mapM_app2; [exact P1|]. apply mapM_cons2; [exact Ex|exact P2].
        -- unfold insert_at. intros Z. rewrite <- (firstn_skipn (Z.to_nat z) running) in Nr. apply in_app_or in Z. destruct Z as [Z|[Z|Z]]; [apply Nr; apply in_or_app; left; exact Z|tauto|apply Nr; apply in_or_app; right; exact Z].
        -- rewrite <- Z2, upd_eq. discriminate.
        -- symmetry. exact Z1.
        -- intros b Nb. rewrite <- Z2. apply upd_neq. exact Nb.
        -- exact Mi1.
        -- eexists. exact Lg.
      * apply Same; [cbn [users]; assert (Hh : has l [s; i; el] = false) by (apply has_false; cbn; intuition congruence); rewrite Hh; reflexivity|]. rewrite <- Z2. apply upd_neq. intros <-. exact (N (r_only _ _ _ _ _ _ _ R s Es)).
    + cbn [step holds] in *. destruct (list_at e m s) as [[a xs]|] eqn:La; [|discriminate]. apply list_at_some in La. destruct La as [Es Ma]. cbn [obind] in S1. destruct (int_at e i) as [z|] eqn:Iz; [|discriminate]. cbn [obind] in S1. destruct (e el) as [x|] eqn:Ex; [|discriminate]. cbn [obind] in S1.
      set (p := if (z <? 0)%Z then (z + Z.of_nat (List.length xs))%Z else z) in *. destruct ((0 <=? p) && (p <? Z.of_nat (List.length xs)))%Z eqn:Rg; [|discriminate]. injection S1 as Z1 Z2.
      destruct (Nat.eq_dec s l) as [->|N].
      * assert (U : users l (SetItem l i el u) = [USet l i el u]) by (cbn [users has existsb]; rewrite Nat.eqb_refl; reflexivity). rewrite U in *. cbn [app firstn literals] in *. rewrite (r_l _ _ _ _ _ _ _ R) in Es. injection Es as <-.
        cbn [rewrite changed] in Rw. rewrite U in Rw. destruct lits as [|lit lits']; [discriminate|]. destruct Md as [Md|((g & G) & Mr & Nr)]; [discriminate|]. destruct (negb u); [|discriminate]. cbn [guard obind] in G. rewrite Nat.eqb_refl in G.
        destruct (legal_index prog i (List.length running)) as [j|] eqn:Li; [|discriminate]. cbn [obind] in G.
        destruct (literals prog l (set_nth j el running) _) as [[ls g']|] eqn:Lg in G; [|discriminate]. cbn in G. injection G as <- <- _.
        rewrite Ma in Mr. pose proof (mapM_len _ _ _ Mr) as Lx.
        assert (j = Z.to_nat p) as ->. { unfold legal_index in Li. destruct (const prog i) as [z'|] eqn:Cz; [|discriminate]. cbn [obind] in Li. assert (z = z') as <-. { unfold int_at in Iz. destruct (e i) as [y|] eqn:Ei; [|discriminate]. rewrite (Ii i z' y (const_in _ _ _ Cz) Ei) in Iz. cbn in Iz. congruence. } rewrite <- Lx in Li. fold p in Li. rewrite Rg in Li. congruence. }
        assert (Bp : Z.to_nat p < List.length running). { apply andb_prop in Rg. destruct Rg as [Q1 Q2]. apply Z.leb_le in Q1. apply Z.ltb_lt in Q2. lia. }
        destruct (mapM_firstn _ (Z.to_nat p) _ _ Mr) as [P1 _]. destruct (mapM_firstn _ (S (Z.to_nat p)) _ _ Mr) as [_ P2].
        apply (Erase (set_nth (Z.to_nat p) el running) ls); try reflexivity.
        -- exists l. split; reflexivity.
        -- exists (USet l i el u). reflexivity.
        -- rewrite <- Z2, upd_eq, <- Z1. rewrite (set_nth_split _ _ _ Bp). apply mapM_app2; [exact P1|]. apply mapM_cons2; [exact Ex|exact P2].
        -- rewrite (set_nth_split _ _ _ Bp). intros Z. apply in_app_or in Z. destruct Z as [Z|[Z|Z]]; [apply Nr; rewrite <- (firstn_skipn (Z.to_nat p) running); apply in_or_app; left; exact Z|tauto|apply Nr; rewrite <- (firstn_skipn (S (Z.to_nat p)) running); apply in_or_app; right; exact Z].
        -- rewrite <- Z2, upd_eq. discriminate.
        -- symmetry. exact Z1.
        -- intros b Nb. rewrite <- Z2. apply upd_neq. exact Nb.
        -- exact Mi1.
        -- eexists. exact Lg.
      * apply Same; [cbn [users]; assert (Hh : has l [s; i; el] = false) by (apply has_false; cbn; intuition congruence); rewrite Hh; reflexivity|]. rewrite <- Z2. apply upd_neq. intros <-. exact (N (r_only _ _ _ _ _ _ _ R s Es)).
    + assert (U : users l (Alias r v) = []) by (cbn [users holds] in *; destruct (Nat.eqb_spec l v) as [->|N]; [contradiction No; reflexivity|reflexivity]). apply (Same U). cbn [step] in S1. destruct (e v); [|discriminate]. cbn in S1. injection S1 as _ <-. reflexivity.
    + cbn [rewrite changed] in Rw. unfold redirect in Rw. pose proof (redirect_inners_k l cur is (S k)) as Kk. pose proof (redirect_inners_rename l cur last Cl is (S k)) as Rr. destruct (redirect_inners l (S k) cur is) as [is' k'] eqn:Ri. cbn [fst snd] in Kk, Rr.
      destruct (rewrite l k' lits cur next post) as [[rest last0]|] eqn:Rw2; [|discriminate]. cbn [obind] in Rw. injection Rw as <- <-.
      assert (Zl : k' = 0 -> last0 = cur). { intros ->. rewrite rewrite_zero in Rw2. congruence. }
      cbn [map run]. cbn [rename_op] in S2 |- *. rewrite (Rr Zl). rewrite S2. cbn [obind]. cbn [users] in Nn, Md. rewrite inner_users in Nn, Md. set (mine := filter (fun i => has l (operands i)) is) in *.
      destruct (Nat.le_gt_cases (S k) (List.length mine)) as [Le|Gt].
      * assert (K0 : k' = 0) by (revert Kk Le; clear; lia). rewrite K0, rewrite_zero in Rw2. apply (IH 0 [] cur next running rest last0 e1 m1 e1' m1' e2 m2); try assumption; [rewrite rewrite_zero; exact Rw2|constructor|left; reflexivity].
      * rewrite firstn_app, firstn_all2 in Nn by (rewrite map_length; lia). rewrite map_length in Nn. apply Forall_app in Nn. destruct Nn as [Nn1 Nn2].
        rewrite <- Kk in Nn2. apply (IH k' lits cur next running rest last0 e1 m1 e1' m1' e2 m2); try assumption.
        destruct Md as [Md|((g & G) & Mr & Nr)]; [left; exact Md|]. rewrite firstn_app, firstn_all2 in G by (rewrite map_length; lia). rewrite map_length, <- Kk, literals_inners in G. destruct (existsb mutates mine) eqn:Em; [injection G as <- _; left; reflexivity|right].
        split; [exists g; exact G|]. split; [|exact Nr].
        assert (Ml : m1 l = m l). { cbn [step] in S1. destruct (mapM (fun f => fetch e m (snd f)) (flags is)) as [args|] eqn:Fa; [|discriminate]. cbn [obind] in S1. destruct (computes r args) as [[d news]|]; [|discriminate]. cbn in S1. injection S1 as _ <-. apply write_alone; [exact (r_only _ _ _ _ _ _ _ R)|].
          intros [b v] I1 Ev. cbn [fst snd] in *. subst v. unfold flags in I1. apply in_flat_map in I1. destruct I1 as (i & Ii2 & I3). apply in_map_iff in I3. destruct I3 as (v & [= <- ->] & Iv). destruct (mutates i) eqn:Mu; [|reflexivity].
          assert (Z : existsb mutates mine = true) by (apply existsb_exists; exists i; split; [apply filter_In; split; [exact Ii2|apply has_true; exact Iv]|exact Mu]). congruence. }
        rewrite Ml. destruct (m l) as [ys|] eqn:My; [exact (Rn ys Mr)|]. exfalso. destruct (Fe l (Ref l) (r_l _ _ _ _ _ _ _ R)) as [_ Z]. congruence.
Qed.
End Whole.
