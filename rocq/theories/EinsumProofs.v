(** Proofs about einsum. *)
From Coq Require Import ZArith Bool Ascii String Lia Permutation Setoid Ring_theory Ring List.
From Verif Require Import Prelude TensorOps DecMoveProofs DecReshapeProofs DecCompactProofs EinsumModel EinsumSpec.
Import ListNotations.
Open Scope list_scope.
Open Scope Z_scope.

(** * Characters *)
Lemma eqb_iff : forall a b, Ascii.eqb a b = true <-> a = b.
Proof. intros. apply Ascii.eqb_eq. Qed.
Lemma has_In : forall l c, has l c = true <-> In c l.
Proof.
  intros l c. unfold has, same_char. rewrite existsb_exists. split.
  - intros (x & I & E). apply eqb_iff in E. now subst.
  - intros I. exists c. split; [auto|now apply eqb_iff].
Qed.
Lemma has_not : forall l c, has l c = false <-> ~ In c l.
Proof. intros l c. rewrite <- has_In. destruct (has l c); split; congruence. Qed.
Lemma eqb_no : forall a b, a <> b -> Ascii.eqb a b = false.
Proof. intros a b N. destruct (Ascii.eqb a b) eqn:E; [|reflexivity]. apply eqb_iff in E. contradiction. Qed.

Section Sums.
Context {R : Type} (zero one : R) (plus times : R -> R -> R).
Hypothesis RT : semi_ring_theory zero one plus times eq.
Add Ring RRing : RT.
Notation sum := (total zero plus).

Lemma sum_app : forall a b, sum (a ++ b) = plus (sum a) (sum b).
Proof. unfold total. induction a as [|x a IH]; intros b; cbn [app fold_right]; [ring|]. rewrite IH. ring. Qed.
Lemma sum_zero : forall A (l : list A), sum (map (fun _ => zero) l) = zero.
Proof. unfold total. induction l as [|x l IH]; cbn; [reflexivity|]. rewrite IH. ring. Qed.
Lemma sum_plus : forall A (f g : A -> R) l, sum (map (fun x => plus (f x) (g x)) l) = plus (sum (map f l)) (sum (map g l)).
Proof. unfold total. induction l as [|x l IH]; cbn; [ring|]. rewrite IH. ring. Qed.
Lemma sum_scale : forall A (f : A -> R) k l, sum (map (fun x => times k (f x)) l) = times k (sum (map f l)).
Proof. unfold total. induction l as [|x l IH]; cbn; [ring|]. rewrite IH. ring. Qed.
Lemma sum_ext : forall A (f g : A -> R) l, (forall x, In x l -> f x = g x) -> sum (map f l) = sum (map g l).
Proof. intros. f_equal. now apply map_ext_in. Qed.
Lemma sum_swap : forall A B (f : A -> B -> R) a b, sum (map (fun x => sum (map (f x) b)) a) = sum (map (fun y => sum (map (fun x => f x y) a)) b).
Proof.
  intros A B f a b. induction a as [|x a IH]; cbn [map].
  - change (sum []) with zero. rewrite sum_zero. reflexivity.
  - change (sum (sum (map (f x) b) :: map (fun x => sum (map (f x) b)) a)) with (plus (sum (map (f x) b)) (sum (map (fun x => sum (map (f x) b)) a))).
    rewrite IH, <- sum_plus. apply sum_ext. reflexivity.
Qed.
Lemma sum_flat_map : forall A B (f : B -> R) (g : A -> list B) l, sum (map f (flat_map g l)) = sum (map (fun x => sum (map f (g x))) l).
Proof. intros A B f g l. induction l as [|x l IH]; [reflexivity|]. cbn [flat_map map]. rewrite map_app, sum_app, IH. reflexivity. Qed.

(** * Sums over letters *)
Variable sz : ascii -> Z.
Hypothesis SZ : forall c, 0 <= sz c.
Definition env := ascii -> Z.
Definition upd (e : env) (c : ascii) (v : Z) : env := fun d => if Ascii.eqb d c then v else e d.
Fixpoint sum_over (ds : token) (f : env -> R) (e : env) : R :=
  match ds with [] => f e | d :: r => sum (map (fun i => sum_over r f (upd e d i)) (zrange 0 (sz d))) end.
Definition ext (f : env -> R) : Prop := forall e e', (forall c, e c = e' c) -> f e = f e'.
(** [f] reads these letters only *)
Definition reads (l : token) (f : env -> R) : Prop := forall e e', (forall c, In c l -> e c = e' c) -> f e = f e'.
Definition valid (l : token) (e : env) : Prop := forall c, In c l -> 0 <= e c < sz c.

Lemma reads_ext : forall l f, reads l f -> ext f.
Proof. intros l f H e e' E. apply H. auto. Qed.
Lemma so_ext : forall ds f g e, (forall e', (forall c, ~ In c ds -> e' c = e c) -> valid ds e' -> f e' = g e') -> sum_over ds f e = sum_over ds g e.
Proof.
  induction ds as [|d r IH]; intros f g e H; cbn [sum_over].
  - apply H; [auto|]. intros c [].
  - apply sum_ext. intros i I. apply in_zrange in I. apply IH. intros e' O V. apply H.
    + intros c N. rewrite O by (intros C; apply N; now right). unfold upd. rewrite eqb_no; [reflexivity|]. intros ->. apply N. now left.
    + intros c [->|C]; [|now apply V]. destruct (in_dec ascii_dec c r) as [C|C]; [now apply V|]. rewrite O by auto. unfold upd. rewrite Ascii.eqb_refl. exact I.
Qed.
Lemma so_is_ext : forall ds f, ext f -> ext (sum_over ds f).
Proof.
  induction ds as [|d r IH]; intros f F e e' E; cbn [sum_over]; [now apply F|].
  apply sum_ext. intros i _. apply IH; [auto|]. intros c. unfold upd. now rewrite E.
Qed.
Lemma so_app : forall a b f e, sum_over (a ++ b) f e = sum_over a (sum_over b f) e.
Proof. induction a as [|d a IH]; intros b f e; cbn [app sum_over]; [reflexivity|]. apply sum_ext. intros. apply IH. Qed.
Lemma so_scale : forall ds f g e, (forall e', (forall c, ~ In c ds -> e' c = e c) -> g e' = g e) ->
  sum_over ds (fun e' => times (g e') (f e')) e = times (g e) (sum_over ds f e).
Proof.
  induction ds as [|d r IH]; intros f g e H; cbn [sum_over]; [reflexivity|].
  rewrite <- sum_scale. apply sum_ext. intros i _. rewrite IH.
  - f_equal. apply H. intros c N. unfold upd. rewrite eqb_no; [reflexivity|]. intros ->. apply N. now left.
  - intros e' O. rewrite (H e'), (H (upd e d i)); [reflexivity| |].
    + intros c N. unfold upd. rewrite eqb_no; [reflexivity|]. intros ->. apply N. now left.
    + intros c N. rewrite O by (intros C; apply N; now right). unfold upd. rewrite eqb_no; [reflexivity|]. intros ->. apply N. now left.
Qed.
Lemma so_perm : forall a b, Permutation a b -> NoDup a -> forall f e, ext f -> sum_over a f e = sum_over b f e.
Proof.
  intros a b P. induction P as [|x a b P IH|x y l|a b c P1 IH1 P2 IH2]; intros ND f e F.
  - reflexivity.
  - inversion_clear ND. cbn [sum_over]. apply sum_ext. intros. now apply IH.
  - cbn [sum_over]. rewrite sum_swap. apply sum_ext. intros i _. apply sum_ext. intros j _. apply so_is_ext; [auto|].
    intros c. unfold upd. inversion_clear ND as [|? ? N _]. destruct (Ascii.eqb c x) eqn:E1, (Ascii.eqb c y) eqn:E2; try reflexivity.
    apply eqb_iff in E1, E2. subst. exfalso. apply N. now left.
  - rewrite IH1 by auto. apply IH2; [|auto]. eapply Permutation_NoDup; eauto.
Qed.
Fixpoint bind (ds : token) (jx : list Z) (e : env) : env :=
  match ds, jx with d :: ds, j :: jx => bind ds jx (upd e d j) | _, _ => e end.
Lemma so_indices : forall ds f e, sum_over ds f e = sum (map (fun jx => f (bind ds jx e)) (all_indices (map sz ds))).
Proof.
  induction ds as [|d r IH]; intros f e; cbn [sum_over map all_indices bind]; [unfold total; cbn; ring|].
  rewrite sum_flat_map. apply sum_ext. intros i _. rewrite IH, map_map. apply sum_ext. reflexivity.
Qed.
Lemma bind_out : forall ds jx e c, ~ In c ds -> bind ds jx e c = e c.
Proof.
  induction ds as [|d r IH]; intros [|j jx] e c N; cbn [bind]; try reflexivity. rewrite IH by (intros C; apply N; now right).
  unfold upd. rewrite eqb_no; [reflexivity|]. intros ->. apply N. now left.
Qed.
Lemma bind_in : forall ds jx e, NoDup ds -> length jx = length ds -> map (bind ds jx e) ds = jx.
Proof.
  induction ds as [|d r IH]; intros [|j jx] e ND L; cbn [length] in L; try lia; [reflexivity|]. inversion_clear ND as [|? ? N ND'].
  cbn [map]. cbn [bind]. rewrite bind_out by auto. unfold upd at 1. rewrite Ascii.eqb_refl. f_equal. apply IH; [auto|lia].
Qed.
Lemma bind_valid : forall ds jx e, NoDup ds -> within (map sz ds) jx -> valid ds (bind ds jx e).
Proof.
  intros ds jx e ND W c I. assert (L : length jx = length ds) by (apply within_length in W; now rewrite map_length in W).
  pose proof (bind_in ds jx e ND L) as B. apply within_iff in W. destruct W as [_ G].
  destruct (In_nth ds c "a"%char I) as (k & K & E). specialize (G k ltac:(now rewrite map_length)).
  unfold get in G. rewrite <- B in G. rewrite (nth_indep _ 0 (bind ds jx e "a"%char)) in G by now rewrite map_length. rewrite map_nth, E in G.
  rewrite (nth_indep _ 0 (sz "a"%char)) in G by now rewrite map_length. now rewrite map_nth, E in G.
Qed.
Lemma all_within : forall s jx, In jx (all_indices s) -> within s jx.
Proof.
  induction s as [|n s IH]; intros jx H; cbn [all_indices] in H.
  - destruct H as [<-|[]]. constructor.
  - apply in_flat_map in H. destruct H as (i & I & H). apply in_map_iff in H. destruct H as (r & <- & H). constructor; [now apply in_zrange|now apply IH].
Qed.
Lemma sz_nonneg : forall l, Forall (fun n => 0 <= n) (map sz l).
Proof. induction l; constructor; auto. Qed.
Lemma valid_within : forall l e, valid l e -> within (map sz l) (map e l).
Proof.
  induction l as [|c l IH]; intros e V; [constructor|]. constructor; [apply V; now left|]. apply IH. intros d I. apply V. now right.
Qed.
Definition vol (l : token) : Z := prodZ (map sz l).
Definition at_letters (l : token) (e : env) : Z := ravel (map sz l) (map e l).
Lemma vol_nonneg : forall l, 0 <= vol l.
Proof.
  unfold vol. induction l as [|c l IH]; [cbn; lia|]. change (prodZ (map sz (c :: l))) with (sz c * prodZ (map sz l)).
  pose proof (SZ c). now apply Z.mul_nonneg_nonneg.
Qed.
Lemma at_bounds : forall l e, valid l e -> 0 <= at_letters l e < vol l.
Proof. intros l e V. apply ravel_bounds. now apply valid_within. Qed.
(** A sum over a collapsed dimension *)
Lemma so_ravel : forall ds g e, NoDup ds -> sum (map g (zrange 0 (vol ds))) = sum_over ds (fun e' => g (at_letters ds e')) e.
Proof.
  intros ds g e ND. rewrite so_indices. rewrite all_indices_unravel by apply sz_nonneg. rewrite map_map. apply sum_ext.
  intros p I. apply in_zrange in I. destruct (unravel_within (map sz ds) p (sz_nonneg ds) I) as [W E].
  unfold at_letters. rewrite bind_in; [|auto|]. 2: { apply within_length in W. now rewrite map_length in W. } now rewrite E.
Qed.

(** * The meaning of a tensor with letters *)
Definition den (l : token) (t : tensor R) (e : env) : R := elt t (map e l).
Lemma den_reads : forall l t, reads l (den l t).
Proof. intros l t e e' H. unfold den. f_equal. apply map_ext_in. exact H. Qed.

(** ** Permutations *)
Fixpoint where_in (c : ascii) (t : token) : nat := match t with [] => O | x :: r => if Ascii.eqb c x then O else S (where_in c r) end.
Lemma where_in_nth : forall t c d, In c t -> (where_in c t < length t)%nat /\ nth (where_in c t) t d = c.
Proof.
  induction t as [|x t IH]; intros c d I; [destruct I|]. cbn [where_in length]. destruct (Ascii.eqb c x) eqn:E.
  - apply eqb_iff in E. subst. cbn. split; [lia|reflexivity].
  - destruct I as [->|I]; [rewrite Ascii.eqb_refl in E; discriminate|]. destruct (IH c d I). cbn [nth]. split; [lia|auto].
Qed.
Lemma last_position_out : forall t c k f, ~ In c t -> last_position c t k f = f.
Proof.
  induction t as [|x t IH]; intros c k f N; cbn [last_position]; [reflexivity|]. unfold same_char. rewrite eqb_no by (intros ->; apply N; now left).
  apply IH. intros I. apply N. now right.
Qed.
Lemma last_position_in : forall t c k f, NoDup t -> In c t -> last_position c t k f = k + Z.of_nat (where_in c t).
Proof.
  induction t as [|x t IH]; intros c k f ND I; [destruct I|]. inversion_clear ND as [|? ? N ND']. cbn [last_position where_in]. unfold same_char. destruct (Ascii.eqb c x) eqn:E.
  - apply eqb_iff in E. subst. rewrite last_position_out by auto. lia.
  - destruct I as [->|I]; [rewrite Ascii.eqb_refl in E; discriminate|]. rewrite IH by auto. lia.
Qed.
Lemma where_in_seq : forall t, NoDup t -> map (fun c => where_in c t) t = seq 0 (length t).
Proof.
  induction t as [|x t IH]; intros ND; [reflexivity|]. inversion_clear ND as [|? ? N ND']. cbn [map where_in length seq]. rewrite Ascii.eqb_refl. f_equal.
  rewrite <- seq_shift, <- (IH ND'), map_map. apply map_ext_in. intros c I. rewrite eqb_no; [reflexivity|]. intros ->. auto.
Qed.
Lemma map_seq_nth : forall (e : env) t d, map (fun k => e (nth k t d)) (seq 0 (length t)) = map e t.
Proof.
  intros e t d. induction t as [|x t IH]; [reflexivity|]. cbn [length seq map nth]. f_equal. rewrite <- seq_shift, map_map. exact IH.
Qed.
Lemma permute_letters : forall t l l', NoDup l -> Permutation l' l -> sizes t = map sz l ->
  exists u, permute t (map (fun d => last_position d l 0 0) l') = Some u /\ sizes u = map sz l' /\ forall e, den l' u e = den l t e.
Proof.
  intros t l l' ND P S. set (ks := map (fun c => where_in c l) l').
  assert (IN : forall c, In c l' -> In c l) by (intros c; apply Permutation_in; auto).
  assert (K : map (fun d => last_position d l 0 0) l' = map Z.of_nat ks).
  { unfold ks. rewrite map_map. apply map_ext_in. intros c I. rewrite last_position_in by auto. lia. }
  assert (PK : Permutation (seq 0 (length (sizes t))) ks).
  { rewrite S, map_length, <- where_in_seq by auto. unfold ks. apply Permutation_map. now apply Permutation_sym. }
  rewrite K, (permute_is _ t ks PK). eexists. split; [reflexivity|]. cbn [sizes elt reindex]. split.
  - unfold ks. rewrite map_map. apply map_ext_in. intros c I. rewrite S. unfold get. destruct (where_in_nth l c "a"%char (IN c I)) as [W E].
    rewrite (nth_indep _ 0 (sz "a"%char)) by now rewrite map_length. now rewrite map_nth, E.
  - intros e. unfold den. cbn [elt reindex]. f_equal. rewrite S, map_length, <- (map_seq_nth e l "a"%char). apply map_ext_in. intros k Ik.
    assert (Ik' : In k ks) by (eapply Permutation_in; [exact PK|rewrite S, map_length; exact Ik]).
    destruct (position_In ks k Ik') as [Lp Np]. specialize (Np (where_in "a"%char l)).
    unfold ks in Np at 2. rewrite (map_nth (fun c => where_in c l)) in Np. unfold ks in Lp at 2. rewrite map_length in Lp.
    unfold get. rewrite (nth_indep _ 0 (e "a"%char)) by now rewrite map_length. rewrite map_nth. f_equal.
    set (c := nth (position k ks) l' "a"%char) in *. assert (Ic : In c l) by (apply IN; now apply nth_In).
    destruct (where_in_nth l c "a"%char Ic) as [_ E]. now rewrite Np in E.
Qed.

(** ** Reshapes *)
Lemma at_app : forall a b e, at_letters (a ++ b) e = at_letters a e * vol b + at_letters b e.
Proof. intros. unfold at_letters, vol. rewrite !map_app. apply ravel_app. now rewrite !map_length. Qed.
Lemma vol_app : forall a b, vol (a ++ b) = vol a * vol b.
Proof. intros. unfold vol. now rewrite map_app, prodZ_app. Qed.
Lemma valid_app : forall a b e, valid (a ++ b) e <-> valid a e /\ valid b e.
Proof.
  unfold valid. intros. split; [intros H; split; intros c I; apply H; apply in_or_app; auto|].
  intros [Ha Hb] c I. apply in_app_or in I. destruct I; auto.
Qed.
Lemma three_nonneg : forall a b c, Forall (fun n => 0 <= n) [vol a; vol b; vol c].
Proof. intros. repeat constructor; apply vol_nonneg. Qed.
Lemma prod3 : forall x y z, prodZ [x; y; z] = x * (y * z).
Proof. intros. cbn. lia. Qed.
Lemma ravel3 : forall n m k x y z, ravel [n; m; k] [x; y; z] = x * (m * k) + y * k + z.
Proof. intros. cbn [ravel]. cbn. lia. Qed.
Lemma collapse3 : forall t a b c, sizes t = map sz (a ++ b ++ c) ->
  exists u, view t [vol a; vol b; vol c] = Some u /\ sizes u = [vol a; vol b; vol c] /\
    forall e, valid (a ++ b ++ c) e -> elt u [at_letters a e; at_letters b e; at_letters c e] = den (a ++ b ++ c) t e.
Proof.
  intros t a b c S. rewrite view_exact; [|apply three_nonneg|].
  2: { rewrite S, prod3. change (prodZ (map sz (a ++ b ++ c))) with (vol (a ++ b ++ c)). rewrite !vol_app. reflexivity. }
  eexists. split; [reflexivity|]. split; [reflexivity|]. intros e V. cbn [elt reindex]. unfold den. f_equal.
  rewrite ravel3, S. rewrite <- (unravel_ravel (map sz (a ++ b ++ c)) (map e (a ++ b ++ c))) by now apply valid_within.
  f_equal. change (ravel (map sz (a ++ b ++ c)) (map e (a ++ b ++ c))) with (at_letters (a ++ b ++ c) e). rewrite !at_app, vol_app. ring.
Qed.
Lemma spread3 : forall t a b c, sizes t = [vol a; vol b; vol c] ->
  exists u, view t (map sz (a ++ b ++ c)) = Some u /\ sizes u = map sz (a ++ b ++ c) /\
    forall e, valid (a ++ b ++ c) e -> den (a ++ b ++ c) u e = elt t [at_letters a e; at_letters b e; at_letters c e].
Proof.
  intros t a b c S. rewrite view_exact; [|apply sz_nonneg|].
  2: { rewrite S, prod3. change (prodZ (map sz (a ++ b ++ c))) with (vol (a ++ b ++ c)). rewrite !vol_app. reflexivity. }
  eexists. split; [reflexivity|]. split; [reflexivity|]. intros e V. cbn [elt reindex]. unfold den. cbn [elt reindex]. f_equal.
  change (ravel (map sz (a ++ b ++ c)) (map e (a ++ b ++ c))) with (at_letters (a ++ b ++ c) e). rewrite S.
  apply valid_app in V. destruct V as [Va V]. apply valid_app in V. destruct V as [Vb Vc].
  rewrite <- (unravel_ravel [vol a; vol b; vol c] [at_letters a e; at_letters b e; at_letters c e]).
  - rewrite ravel3, !at_app, vol_app. f_equal. ring.
  - constructor; [now apply at_bounds|]. constructor; [now apply at_bounds|]. constructor; [now apply at_bounds|constructor].
Qed.
Lemma bmm_letters : forall x y b m c p, sizes x = [vol b; vol m; vol c] -> sizes y = [vol b; vol c; vol p] ->
  exists u, bmm zero plus times x y = Some u /\ sizes u = [vol b; vol m; vol p] /\
    forall e, valid b e -> elt u [at_letters b e; at_letters m e; at_letters p e] =
      sum (map (fun j => times (elt x [at_letters b e; at_letters m e; j]) (elt y [at_letters b e; j; at_letters p e])) (zrange 0 (vol c))).
Proof.
  intros x y b m c p Sx Sy. unfold bmm. rewrite Sx, Sy, !Z.eqb_refl. cbn [andb orb]. eexists. split; [reflexivity|]. cbn [sizes elt]. split.
  - destruct (vol b =? 1); reflexivity.
  - intros e V. apply sum_ext. intros j _. cbn [get nth]. unfold get. cbn [nth].
    assert (Hb : (if vol b =? 1 then 0 else at_letters b e) = at_letters b e).
    { destruct (Z.eqb_spec (vol b) 1) as [E|_]; [|reflexivity]. pose proof (at_bounds b e V). lia. }
    now rewrite Hb.
Qed.

(** ** One matrix product *)
Lemma nodup_app : forall A (a b : list A), NoDup a -> NoDup b -> (forall x, In x a -> ~ In x b) -> NoDup (a ++ b).
Proof.
  induction a as [|x a IH]; intros b Na Nb D; [exact Nb|]. inversion_clear Na as [|? ? N Na']. cbn [app]. constructor.
  - intros I. apply in_app_or in I. destruct I as [I|I]; [auto|]. apply (D x); [now left|auto].
  - apply IH; auto. intros y I. apply D. now right.
Qed.
Lemma nodup_split : forall A (a b : list A), NoDup (a ++ b) -> NoDup a /\ NoDup b /\ forall x, In x a -> ~ In x b.
Proof.
  induction a as [|x a IH]; intros b N; [split; [constructor|split; [exact N|intros ? []]]|]. cbn [app] in N. inversion_clear N as [|? ? Nx N']. destruct (IH b N') as (Na & Nb & D).
  split; [constructor; [intros I; apply Nx; apply in_or_app; auto|auto]|]. split; [auto|].
  intros y [->|I] Iy; [apply Nx; apply in_or_app; auto|exact (D y I Iy)].
Qed.
Lemma four_parts : forall (p q : ascii -> bool) l,
  Permutation (filter (fun c => p c && q c) l ++ (filter (fun c => q c && negb (p c && q c)) l ++ filter (fun c => negb (p c) && negb (q c)) l) ++ filter (fun c => p c && negb (q c)) l) l.
Proof.
  intros p q l. induction l as [|x l IH]; [constructor|]. cbn [filter]. destruct (p x), (q x); cbn [andb negb app].
  - now constructor.
  - apply Permutation_sym. rewrite app_assoc. apply Permutation_cons_app. rewrite <- app_assoc. now apply Permutation_sym.
  - apply Permutation_sym. apply Permutation_cons_app. now apply Permutation_sym.
  - apply Permutation_sym. rewrite <- (app_assoc (filter (fun c => q c && negb (p c && q c)) l)), (app_assoc (filter (fun c => p c && q c) l)). cbn [app]. apply Permutation_cons_app. rewrite <- app_assoc, (app_assoc (filter (fun c => q c && negb (p c && q c)) l)). now apply Permutation_sym.
Qed.
Lemma filter_NoDup : forall (f : ascii -> bool) l, NoDup l -> NoDup (filter f l).
Proof.
  intros f l N. induction N as [|x l I N IH]; [constructor|]. cbn [filter]. destruct (f x); [|exact IH]. constructor; [|exact IH].
  intros J. apply filter_In in J. tauto.
Qed.
Ltac letters_in := repeat (rewrite in_app_iff || rewrite filter_In); 
  repeat match goal with
  | H : context [In _ (_ ++ _)] |- _ => rewrite in_app_iff in H
  | H : context [In _ (filter _ _)] |- _ => rewrite filter_In in H
  end.
Ltac parts := unfold batching, contracting, lhs_other, lhs_reduce, rhs_other, rhs_reduce in *.
Lemma rhs_parts : forall l r out, NoDup l -> NoDup r ->
  Permutation (batching l r out ++ contracting l r out ++ rhs_other l r out ++ rhs_reduce l r out) r.
Proof.
  intros l r out Nl Nr. parts. apply NoDup_Permutation; [|exact Nr|].
  - apply nodup_app; [now apply filter_NoDup| |].
    + apply nodup_app; [now apply filter_NoDup| |].
      * apply nodup_app; [now apply filter_NoDup|now apply filter_NoDup|]. intros x. letters_in. destruct (has l x), (has out x); cbn; intuition discriminate.
      * intros x. letters_in. intros [I H] [[J K]|[J K]]; apply has_In in I; rewrite I in *; destruct (has out x), (has r x); cbn in *; discriminate.
    + intros x. letters_in. intros [I H] [[J K]|[[J K]|[J K]]]; try apply has_In in I; rewrite ?I in *; destruct (has out x), (has r x); cbn in *; discriminate.
  - intros x. letters_in. rewrite <- !has_In. destruct (has l x), (has r x), (has out x); cbn; intuition discriminate.
Qed.
Lemma size_in_own : forall l c, NoDup l -> In c l -> size_in l (map sz l) c = sz c.
Proof.
  intros l c N I. unfold size_in. rewrite last_position_in by auto. rewrite Z.add_0_l, Nat2Z.id. destruct (where_in_nth l c "a"%char I) as [W E].
  unfold get. rewrite (nth_indep _ 0 (sz "a"%char)) by now rewrite map_length. now rewrite map_nth, E.
Qed.
Lemma out_size_own : forall l r c, NoDup l -> NoDup r -> In c l \/ In c r -> out_size l (map sz l) r (map sz r) c = sz c.
Proof.
  intros l r c Nl Nr I. unfold out_size. destruct (has l c) eqn:Hl, (has r c) eqn:Hr; cbn [andb]; rewrite ?has_In, ?has_not in *.
  - rewrite !size_in_own by auto. lia.
  - now apply size_in_own.
  - now apply size_in_own.
  - destruct I; contradiction.
Qed.
Lemma firstn_pre : forall A (a b : list A) n, length a = n -> firstn n (a ++ b) = a.
Proof. intros A a b n <-. rewrite firstn_app, firstn_all, Nat.sub_diag. cbn. apply app_nil_r. Qed.
Lemma skipn_pre : forall A (a b : list A) n, length a = n -> skipn n (a ++ b) = b.
Proof. intros A a b n <-. rewrite skipn_app, skipn_all, Nat.sub_diag. reflexivity. Qed.
Lemma collapse_lhs : forall (t : tensor R) b o r c, sizes t = map sz (b ++ (o ++ r) ++ c) ->
  collapse_for_matmul t (length b) (length c) (length o) (length r) true = view t [vol b; vol (o ++ r); vol c].
Proof.
  intros t b o r c S. unfold collapse_for_matmul. assert (L : length (sizes t) = (length b + length c + length o + length r)%nat) by (rewrite S, map_length, !app_length; lia).
  rewrite firstn_all2 by lia. rewrite L. destruct (Nat.ltb_spec (length b + length c + length o + length r) (length b + length c + length o + length r)); [lia|].
  rewrite S, !map_app. rewrite <- (map_app sz o r). rewrite firstn_pre by apply map_length. rewrite skipn_pre by apply map_length. rewrite firstn_pre by (rewrite map_length, app_length; lia).
  rewrite app_assoc. rewrite skipn_pre by (rewrite app_length, !map_length, app_length; lia). rewrite firstn_all2 by (rewrite map_length; lia). reflexivity.
Qed.
Lemma collapse_rhs : forall (t : tensor R) b o r c, sizes t = map sz (b ++ c ++ o ++ r) ->
  collapse_for_matmul t (length b) (length c) (length o) (length r) false = view t [vol b; vol c; vol (o ++ r)].
Proof.
  intros t b o r c S. unfold collapse_for_matmul. assert (L : length (sizes t) = (length b + length c + length o + length r)%nat) by (rewrite S, map_length, !app_length; lia).
  rewrite firstn_all2 by lia. rewrite L. destruct (Nat.ltb_spec (length b + length c + length o + length r) (length b + length c + length o + length r)); [lia|].
  rewrite S, !map_app. rewrite <- (map_app sz o r). rewrite firstn_pre by apply map_length. rewrite skipn_pre by apply map_length. rewrite firstn_pre by apply map_length.
  rewrite app_assoc. rewrite skipn_pre by (rewrite app_length, !map_length; lia). rewrite firstn_all2 by (rewrite map_length, app_length; lia). reflexivity.
Qed.
Lemma at_agree : forall l e e', (forall c, In c l -> e' c = e c) -> at_letters l e' = at_letters l e.
Proof. intros l e e' H. unfold at_letters. f_equal. now apply map_ext_in. Qed.
Definition product_letters (l r out : token) : token := batching l r out ++ lhs_other l r out ++ lhs_reduce l r out ++ rhs_other l r out ++ rhs_reduce l r out.
Lemma product_NoDup : forall l r out, NoDup l -> NoDup r -> NoDup (product_letters l r out ++ contracting l r out).
Proof.
  intros l r out Nl Nr. unfold product_letters. parts.
  repeat (apply nodup_app; [|now apply filter_NoDup|]; [|intros x; letters_in; rewrite <- ?has_In; destruct (has l x), (has r x), (has out x); cbn; intuition discriminate]).
  repeat (apply nodup_app; [now apply filter_NoDup| |intros x; letters_in; rewrite <- ?has_In; destruct (has l x), (has r x), (has out x); cbn; intuition discriminate]).
  now apply filter_NoDup.
Qed.
Lemma product_In : forall l r out c, In c (product_letters l r out) <-> (In c l \/ In c r) /\ ~ (In c l /\ In c r /\ ~ In c out).
Proof.
  intros l r out c. unfold product_letters. parts. letters_in. rewrite <- !has_In. destruct (has l c), (has r c), (has out c); cbn; intuition discriminate.
Qed.
Lemma contracting_In : forall l r out c, In c (contracting l r out) <-> In c l /\ In c r /\ ~ In c out.
Proof. intros. parts. letters_in. rewrite <- !has_In. destruct (has l c), (has r c), (has out c); cbn; intuition discriminate. Qed.

Lemma matmul_letters : forall x l y r out, NoDup l -> NoDup r -> sizes x = map sz l -> sizes y = map sz r ->
  exists u, perform_matmul zero plus times x l y r out = Some (u, product_letters l r out) /\ sizes u = map sz (product_letters l r out) /\
    forall e, valid (product_letters l r out) e ->
      den (product_letters l r out) u e = sum_over (contracting l r out) (fun e' => times (den l x e') (den r y e')) e.
Proof.
  intros x l y r out Nl Nr Sx Sy. unfold perform_matmul. unfold rank at 1 2. rewrite Sx, Sy. unfold zlen at 1 3. rewrite !map_length. fold (zlen l). fold (zlen r).
  rewrite !Z.ltb_irrefl. cbn [orb].
  pose proof (product_In l r out) as PI. pose proof (product_NoDup l r out Nl Nr) as PN. pose proof (contracting_In l r out) as CI.
  pose proof (rhs_parts l r out Nl Nr) as PR.
  assert (PL : Permutation (batching l r out ++ (lhs_other l r out ++ lhs_reduce l r out) ++ contracting l r out) l) by apply (four_parts (has r) (has out) l).
  unfold product_letters in *.
  set (b := batching l r out) in *. set (c := contracting l r out) in *. set (lo := lhs_other l r out) in *. set (lr := lhs_reduce l r out) in *.
  set (ro := rhs_other l r out) in *. set (rr := rhs_reduce l r out) in *.
  unfold permute_for_matmul. cbn [app]. rewrite app_nil_r.
  assert (E1 : b ++ lo ++ lr ++ c = b ++ (lo ++ lr) ++ c) by now rewrite <- !app_assoc. rewrite E1.
  destruct (permute_letters x l _ Nl PL Sx) as (x1 & -> & Sx1 & Dx). destruct (permute_letters y r _ Nr PR Sy) as (y1 & -> & Sy1 & Dy). cbn [obind].
  rewrite (collapse_lhs x1 b lo lr c Sx1), (collapse_rhs y1 b ro rr c Sy1).
  destruct (collapse3 x1 b (lo ++ lr) c Sx1) as (x2 & -> & Sx2 & Vx). destruct (collapse3 y1 b c (ro ++ rr) Sy1) as (y2 & -> & Sy2 & Vy). cbn [obind].
  destruct (bmm_letters x2 y2 b (lo ++ lr) c (ro ++ rr) Sx2 Sy2) as (z & -> & Sz & Vz). cbn [obind].
  assert (E2 : map (out_size l (map sz l) r (map sz r)) (b ++ lo ++ lr ++ ro ++ rr) = map sz (b ++ (lo ++ lr) ++ ro ++ rr)).
  { rewrite <- app_assoc. apply map_ext_in. intros d I. apply out_size_own; auto. now apply PI in I. }
  rewrite E2. destruct (spread3 z b (lo ++ lr) (ro ++ rr) Sz) as (u & -> & Su & Vu). cbn [obind].
  exists u. split; [reflexivity|]. assert (E3 : b ++ (lo ++ lr) ++ ro ++ rr = b ++ lo ++ lr ++ ro ++ rr) by now rewrite <- app_assoc. rewrite E3 in *.
  split; [exact Su|]. intros e V. rewrite (Vu e V).
  rewrite <- E3 in V. pose proof V as V'. apply valid_app in V. destruct V as [Vb V]. apply valid_app in V. destruct V as [Vlo Vro].
  rewrite (Vz e Vb). apply nodup_split in PN. destruct PN as (_ & Nc & Dc). rewrite (so_ravel c (fun j => times (elt x2 [at_letters b e; at_letters (lo ++ lr) e; j]) (elt y2 [at_letters b e; j; at_letters (ro ++ rr) e])) e Nc).
  apply so_ext. intros e' O V2.
  assert (AG : forall d, In d (b ++ lo ++ lr ++ ro ++ rr) -> e' d = e d) by (intros d I; apply O; now apply Dc).
  rewrite <- (at_agree b e e'), <- (at_agree (lo ++ lr) e e'), <- (at_agree (ro ++ rr) e e') by (intros d I; apply AG; rewrite !in_app_iff in *; tauto).
  assert (VV : forall k, (forall d, In d k -> In d (b ++ lo ++ lr ++ ro ++ rr) \/ In d c) -> valid k e').
  { intros k H d I. destruct (H d I) as [J|J]; [|now apply V2]. rewrite (AG d J). apply V'. now rewrite E3. }
  rewrite Vx, Vy by (apply VV; intros d I; rewrite !in_app_iff in *; tauto). now rewrite Dx, Dy.
Qed.

(** ** All matrix products *)
Definition prod_den (ls : list token) (ts : list (tensor R)) (e : env) : R := fold_right times one (map (fun p : token * tensor R => den (fst p) (snd p) e) (combine ls ts)).
Lemma prod_den_reads : forall ls ts, reads (concat ls) (prod_den ls ts).
Proof.
  unfold prod_den. induction ls as [|l ls IH]; intros [|t ts] e e' H; cbn [combine map fold_right fst snd]; try reflexivity. cbn [concat] in H. f_equal.
  - apply den_reads. intros c I. apply H. apply in_or_app. auto.
  - apply IH. intros c I. apply H. apply in_or_app. auto.
Qed.
Lemma operands_cons : forall c l ls, operands_with c (l :: ls) = ((if has l c then 1 else 0) + operands_with c ls)%nat.
Proof. intros. unfold operands_with. cbn [filter]. change (existsb (Ascii.eqb c) l) with (has l c). now destruct (has l c). Qed.
Lemma operands_none : forall c ls, operands_with c ls = O -> ~ In c (concat ls).
Proof.
  induction ls as [|l ls IH]; intros H; [intros []|]. rewrite operands_cons in H. destruct (has l c) eqn:E; [lia|]. cbn [concat]. intros I. apply in_app_or in I.
  destruct I as [I|I]; [now apply has_not in E|]. apply IH; auto.
Qed.
Lemma matmul_all_letters : forall ls ts x l out, NoDup l -> Forall (@NoDup ascii) ls -> sizes x = map sz l -> Forall2 (fun r (t : tensor R) => sizes t = map sz r) ls ts -> at_most_two (l :: ls) out ->
  exists u l' S, matmul_all zero plus times x l ts ls out = Some (u, l') /\ NoDup (S ++ l') /\ sizes u = map sz l' /\ (forall c, In c (S ++ l') <-> In c (l ++ concat ls)) /\
    (forall c, In c S -> ~ In c out) /\ forall e, valid l' e -> den l' u e = sum_over S (fun e' => times (den l x e') (prod_den ls ts e')) e.
Proof.
  induction ls as [|r ls IH]; intros ts x l out Nl Ns Sx F A; inversion F as [|? y ? ts' Sy F']; subst.
  - exists x, l, []. cbn [matmul_all app concat]. split; [reflexivity|]. split; [auto|]. split; [auto|]. split; [intros; now rewrite app_nil_r|]. split; [intros ? []|].
    intros e V. cbn [sum_over]. unfold prod_den. cbn. ring.
  - inversion_clear Ns as [|? ? Nr Ns']. cbn [matmul_all]. destruct (matmul_letters x l y r out Nl Nr Sx Sy) as (u1 & -> & Su & Du). cbn [obind fst snd].
    pose proof (product_In l r out) as PI. pose proof (product_NoDup l r out Nl Nr) as PN. pose proof (contracting_In l r out) as CI.
    set (l1 := product_letters l r out) in *. set (C := contracting l r out) in *. apply nodup_split in PN. destruct PN as (N1 & NC & D1).
    assert (A1 : at_most_two (l1 :: ls) out).
    { intros c No. specialize (A c No). rewrite !operands_cons in A. rewrite operands_cons. destruct (has l c) eqn:Hl, (has r c) eqn:Hr, (has l1 c) eqn:H1; try lia.
      apply has_In in H1. apply has_not in Hl, Hr. apply PI in H1. tauto. }
    assert (CR : forall c, In c C -> ~ In c (concat ls)).
    { intros c I. apply CI in I. destruct I as (Il & Ir & No). specialize (A c No). rewrite !operands_cons in A. apply has_In in Il, Ir. rewrite Il, Ir in A. apply operands_none. lia. }
    destruct (IH ts' u1 l1 out N1 Ns' Su F' A1) as (u & l' & S' & E & NS & Suu & IN & DO & V). rewrite E. exists u, l', (S' ++ C).
    split; [reflexivity|]. assert (CS : forall c, In c C -> ~ In c (S' ++ l')).
    { intros c I J. apply IN in J. apply in_app_or in J. destruct J as [J|J]; [exact (D1 c J I)|exact (CR c I J)]. }
    split.
    { apply Permutation_NoDup with (C ++ S' ++ l').
      - rewrite !app_assoc. apply Permutation_app_tail. apply Permutation_app_comm.
      - apply nodup_app; auto. }
    split; [auto|]. split.
    { intros c. cbn [concat]. rewrite <- app_assoc. specialize (IN c). specialize (PI c). specialize (CI c). rewrite !in_app_iff in *. destruct (in_dec ascii_dec c l), (in_dec ascii_dec c r), (in_dec ascii_dec c out); tauto. }
    split.
    { intros c I. apply in_app_or in I. destruct I as [I|I]; [now apply DO|]. now apply CI in I. }
    intros e Ve. rewrite (V e Ve), so_app. apply so_ext. intros e' O V'.
    rewrite Du.
    2: { intros c I. destruct (in_dec ascii_dec c S') as [J|J]; [now apply V'|]. rewrite O by auto. apply Ve. assert (K : In c (S' ++ l')) by (apply IN, in_or_app; auto). apply in_app_or in K. tauto. }
    transitivity (times (prod_den ls ts' e') (sum_over C (fun e0 => times (den l x e0) (den r y e0)) e')); [ring|].
    rewrite <- so_scale.
    2: { intros e2 O2. apply prod_den_reads. intros c I. apply O2. intros J. exact (CR c J I). }
    apply so_ext. intros e2 _ _. unfold prod_den. cbn [combine map fold_right fst snd]. ring.
Qed.

(** ** The last reduction *)
Definition drops (ds : list nat) (k : nat) (l out : token) : Prop := forall j d, (j < length l)%nat -> mem (k + j) ds = negb (has out (nth j l d)).
Lemma drops_cons : forall ds k c l out, drops ds k (c :: l) out -> mem k ds = negb (has out c) /\ drops ds (S k) l out.
Proof.
  intros ds k c l out H. split; [specialize (H O c); cbn [nth length] in H; rewrite Nat.add_0_r in H; apply H; lia|].
  intros j d J. specialize (H (S j) d). cbn [nth length] in H. rewrite <- H by lia. f_equal. lia.
Qed.
Lemma keep_letters : forall A (g : ascii -> A) out ds l k, drops ds k l out -> keep ds k (map g l) = map g (filter (has out) l) /\ drop ds k (map g l) = map g (filter (fun c => negb (has out c)) l).
Proof.
  intros A g out ds. induction l as [|c l IH]; intros k H; [split; reflexivity|]. apply drops_cons in H. destruct H as [M H]. destruct (IH (S k) H) as [E1 E2].
  cbn [map keep drop filter]. rewrite M. destruct (has out c); cbn [negb map]; rewrite E1, E2; split; reflexivity.
Qed.
Lemma weave_letters : forall out ds (e : env) l k, drops ds k l out ->
  weave ds k (length l) (map e (filter (has out) l)) (map e (filter (fun c => negb (has out c)) l)) = map e l.
Proof.
  intros out ds e. induction l as [|c l IH]; intros k H; [reflexivity|]. apply drops_cons in H. destruct H as [M H].
  cbn [length map weave filter]. rewrite M. destruct (has out c); cbn [negb map get nth skipn]; unfold get; cbn [nth]; now rewrite IH.
Qed.
Lemma sum_positions_ge : forall out l k j, (j < k)%nat -> mem j (sum_positions k l out) = false.
Proof.
  intros out. induction l as [|c l IH]; intros k j J; cbn [sum_positions]; [reflexivity|]. destruct (has out c); [apply IH; lia|]. cbn [mem]. rewrite IH by lia.
  destruct (Nat.eqb_spec j k); [lia|reflexivity].
Qed.
Lemma sum_positions_drops : forall out l k, drops (sum_positions k l out) k l out.
Proof.
  intros out. induction l as [|c l IH]; intros k j d J; [cbn in J; lia|]. cbn [sum_positions length] in *. destruct j as [|j].
  - rewrite Nat.add_0_r. cbn [nth]. destruct (has out c) eqn:E; [apply sum_positions_ge; lia|]. cbn [mem]. now rewrite Nat.eqb_refl.
  - cbn [nth]. specialize (IH (S k) j d ltac:(lia)). replace (S k + j)%nat with (k + S j)%nat in IH by lia. destruct (has out c); [exact IH|].
    cbn [mem]. destruct (Nat.eqb_spec (k + S j) k); [lia|exact IH].
Qed.
Lemma reduce_letters : forall t l out, NoDup l -> sizes t = map sz l ->
  let v := match sum_positions 0 l out with [] => t | ds => sum_dims zero plus t ds end in
  sizes v = map sz (filter (has out) l) /\ forall e, den (filter (has out) l) v e = sum_over (filter (fun c => negb (has out c)) l) (den l t) e.
Proof.
  intros t l out N S v. pose proof (sum_positions_drops out l 0) as D.
  assert (G : sizes (sum_dims zero plus t (sum_positions 0 l out)) = map sz (filter (has out) l) /\
              forall e, den (filter (has out) l) (sum_dims zero plus t (sum_positions 0 l out)) e = sum_over (filter (fun c => negb (has out c)) l) (den l t) e).
  { cbn [sum_dims sizes elt]. rewrite S. destruct (keep_letters Z sz out _ l 0 D) as [E1 E2]. rewrite E1. split; [reflexivity|]. intros e.
    unfold den at 1. cbn [sum_dims elt]. rewrite S, E2, so_indices. apply sum_ext. intros jx J. apply all_within in J. rewrite map_length. unfold den. f_equal.
    set (dr := filter (fun c => negb (has out c)) l) in *. assert (ND : NoDup dr) by now apply filter_NoDup.
    assert (L : length jx = length dr) by (apply within_length in J; now rewrite map_length in J).
    rewrite <- (weave_letters out (sum_positions 0 l out) (bind dr jx e) l 0 D). fold dr. rewrite (bind_in dr jx e ND L). f_equal.
    apply map_ext_in. intros c I. symmetry. apply bind_out. unfold dr. rewrite filter_In in *. destruct (has out c); cbn; intuition discriminate. }
  subst v. destruct (sum_positions 0 l out) eqn:E; [|exact G].
  assert (F : filter (fun c => negb (has out c)) l = [] /\ filter (has out) l = l).
  { clear -E. revert E. generalize O. induction l as [|c l IH]; intros k E; [split; reflexivity|]. cbn [sum_positions] in E. cbn [filter]. destruct (has out c); [|discriminate].
    cbn [negb]. destruct (IH _ E) as [-> ->]. split; reflexivity. }
  destruct F as [-> ->]. split; [exact S|]. reflexivity.
Qed.
Lemma last_letters : forall t l out, NoDup l -> NoDup out -> incl out l -> sizes t = map sz l ->
  exists u, last_reduce_and_permute zero plus t l out = Some u /\ sizes u = map sz out /\
    forall e, den out u e = sum_over (filter (fun c => negb (has out c)) l) (den l t) e.
Proof.
  intros t l out Nl No I S. unfold last_reduce_and_permute. destruct (reduce_letters t l out Nl S) as [Sv Dv].
  set (v := match sum_positions 0 l out with [] => t | _ :: _ => sum_dims zero plus t (sum_positions 0 l out) end) in *.
  replace (match sum_positions 0 l out with [] => t | ds => sum_dims zero plus t ds end) with v in * by (unfold v; now destruct (sum_positions 0 l out)).
  destruct (permute_letters v (filter (has out) l) out (filter_NoDup _ _ Nl)) as (u & E & Su & Du); [|exact Sv|].
  - apply NoDup_Permutation; [auto|now apply filter_NoDup|]. intros c. rewrite filter_In, has_In. specialize (I c). tauto.
  - exists u. split; [exact E|]. split; [exact Su|]. intros e. now rewrite Du, Dv.
Qed.

(** ** Diagonals *)
Lemma insert_app : forall A (a b : list A) x, insert (length a) x (a ++ b) = a ++ x :: b.
Proof. induction a as [|y a IH]; intros b x; cbn [length app insert]; [destruct b; reflexivity|]. now rewrite IH. Qed.
Lemma remove_app : forall A (a b : list A) x, remove (length a) (a ++ x :: b) = a ++ b.
Proof. induction a as [|y a IH]; intros b x; cbn [length app remove]; [reflexivity|]. now rewrite IH. Qed.
Lemma find_from_some : forall c t k j, find_from c t k = Some j -> exists m s, t = m ++ c :: s /\ j = (k + length m)%nat.
Proof.
  induction t as [|x t IH]; intros k j H; cbn [find_from] in H; [discriminate|]. unfold same_char in H. destruct (Ascii.eqb c x) eqn:E.
  - apply eqb_iff in E. injection H as <-. subst x. exists [], t. split; [reflexivity|cbn; lia].
  - destruct (IH _ _ H) as (m & s & -> & ->). exists (x :: m), s. split; [reflexivity|cbn; lia].
Qed.
Lemma find_from_none : forall c t k, find_from c t k = None -> ~ In c t.
Proof.
  induction t as [|x t IH]; intros k H; cbn [find_from] in H; [intros []|]. unfold same_char in H. destruct (Ascii.eqb c x) eqn:E; [discriminate|].
  intros [->|I]; [rewrite Ascii.eqb_refl in E; discriminate|]. exact (IH _ H I).
Qed.
Lemma get_letter : forall a c b, get (map sz (a ++ c :: b)) (length a) = sz c.
Proof. intros. unfold get. rewrite map_app, app_nth2 by (rewrite map_length; lia). rewrite map_length, Nat.sub_diag. reflexivity. Qed.
Lemma diagonal_letters : forall (t : tensor R) p m s c, sizes t = map sz (p ++ c :: m ++ c :: s) ->
  exists u, diagonal t (Z.of_nat (length p)) (Z.of_nat (length (p ++ c :: m))) = Some u /\ sizes u = map sz (p ++ m ++ s ++ [c]) /\
    forall e, den (p ++ m ++ s ++ [c]) u e = den (p ++ c :: m ++ c :: s) t e.
Proof.
  intros t p m s c S. assert (L : length (sizes t) = (length p + length m + length s + 2)%nat) by (rewrite S, map_length, !app_length; cbn [length]; rewrite app_length; cbn [length]; lia).
  unfold diagonal, rank, zlen. rewrite L. assert (L2 : length (p ++ c :: m) = (length p + Datatypes.S (length m))%nat) by now rewrite app_length.
  rewrite !axis_nat by lia. cbn [obind]. destruct (Nat.eqb_spec (length p) (length (p ++ c :: m))) as [|_]; [lia|]. rewrite Nat.min_l, Nat.max_r by lia.
  assert (S1 : p ++ c :: m ++ c :: s = (p ++ c :: m) ++ c :: s) by (rewrite <- app_assoc; reflexivity).
  eexists. split; [reflexivity|]. split; cbn [sizes elt].
  - assert (G1 : get (sizes t) (length p) = sz c) by (rewrite S; apply get_letter).
    assert (G2 : get (sizes t) (length (p ++ c :: m)) = sz c) by (rewrite S, S1; apply get_letter). rewrite G1, G2, Z.min_id.
    rewrite S, S1, map_app. cbn [map]. rewrite <- (map_length sz (p ++ c :: m)) at 1. rewrite remove_app.
    rewrite (map_app sz p (c :: m)). cbn [map]. rewrite <- app_assoc. cbn [app]. rewrite <- (map_length sz p) at 1. rewrite remove_app. rewrite !map_app. cbn [map].
    rewrite <- !app_assoc. reflexivity.
  - intros e. unfold den. cbn [elt]. f_equal. set (n := (length p + length m + length s + 2 - 2)%nat).
    assert (N : n = length (map e (p ++ m ++ s))) by (unfold n; rewrite map_length, !app_length; lia).
    replace (p ++ m ++ s ++ [c]) with ((p ++ m ++ s) ++ [c]) by now rewrite <- !app_assoc. rewrite map_app. cbn [map].
    rewrite (firstn_pre _ _ _ n) by auto. unfold get. rewrite app_nth2 by lia. rewrite <- N, Nat.sub_diag. cbn [nth].
    rewrite (map_app e p). rewrite <- (map_length e p) at 1. rewrite insert_app. replace (map e p ++ e c :: map e (m ++ s)) with (map e (p ++ c :: m) ++ map e s) by (rewrite !map_app; cbn [map]; rewrite <- app_assoc; reflexivity).
    rewrite <- (map_length e (p ++ c :: m)). rewrite insert_app. rewrite S1, (map_app e (p ++ c :: m)). reflexivity.
Qed.
Lemma diagonalize_letters : forall fuel p q (t : tensor R), (length q <= fuel)%nat -> NoDup p -> (forall c, In c p -> ~ In c q) -> sizes t = map sz (p ++ q) ->
  exists l' u, diagonalize fuel (length p) (p ++ q) t = Some (l', u) /\ NoDup l' /\ (forall c, In c l' <-> In c (p ++ q)) /\ sizes u = map sz l' /\ forall e, den l' u e = den (p ++ q) t e.
Proof.
  induction fuel as [|fuel IH]; intros p q t F Np D S.
  - destruct q; [|cbn in F; lia]. rewrite app_nil_r in *. exists p, t. cbn [diagonalize]. split; [reflexivity|]. split; [auto|]. split; [tauto|]. split; auto.
  - cbn [diagonalize]. destruct q as [|c q].
    + rewrite app_nil_r in *. rewrite (proj2 (nth_error_None p (length p))) by lia. exists p, t. split; [reflexivity|]. split; [auto|]. split; [tauto|]. split; auto.
    + rewrite nth_error_app2, Nat.sub_diag by lia. cbn [nth_error]. replace (skipn (Datatypes.S (length p)) (p ++ c :: q)) with q.
      2: { replace (p ++ c :: q) with ((p ++ [c]) ++ q) by now rewrite <- app_assoc. symmetry. apply skipn_pre. rewrite app_length. cbn. lia. }
      destruct (find_from c q (Datatypes.S (length p))) as [j|] eqn:E.
      * destruct (find_from_some _ _ _ _ E) as (m & s & -> & ->).
        assert (LJ : (Datatypes.S (length p) + length m)%nat = length (p ++ c :: m)) by (rewrite app_length; cbn; lia). rewrite LJ.
        destruct (diagonal_letters t p m s c S) as (u & -> & Su & Du). cbn [obind].
        assert (S1 : p ++ c :: m ++ c :: s = (p ++ c :: m) ++ c :: s) by (rewrite <- app_assoc; reflexivity).
        replace (remove (length p) (remove (length (p ++ c :: m)) (p ++ c :: m ++ c :: s)) ++ [c]) with (p ++ m ++ s ++ [c]).
        2: { rewrite S1, remove_app, <- app_assoc. cbn [app]. rewrite remove_app, <- !app_assoc. reflexivity. }
        destruct (IH p (m ++ s ++ [c]) u) as (l' & v & Ev & Nv & Iv & Sv & Dv); auto.
        -- cbn [length] in F. rewrite !app_length in *. cbn [length] in *. lia.
        -- intros d Id J. apply (D d Id). rewrite !in_app_iff in J. cbn [In] in *. rewrite in_app_iff. cbn [In]. tauto.
        -- exists l', v. split; [exact Ev|]. split; [auto|]. split; [|split; [auto|intros e; now rewrite Dv, Du]].
           intros d. rewrite Iv. rewrite !in_app_iff. cbn [In]. rewrite in_app_iff. cbn [In]. tauto.
      * apply find_from_none in E. replace (p ++ c :: q) with ((p ++ [c]) ++ q) in * by now rewrite <- app_assoc.
        replace (Datatypes.S (length p)) with (length (p ++ [c])) by (rewrite app_length; cbn; lia). apply IH; auto.
        -- cbn [length] in F. lia.
        -- apply nodup_app; [auto|repeat constructor; intros []|]. intros d I [<-|[]]. apply (D c I). now left.
        -- intros d I J. apply in_app_or in I. destruct I as [I|[<-|[]]]; [|auto]. apply (D d I). now right.
Qed.
Lemma diagonalize_all_letters : forall ls ts, Forall2 (fun r (t : tensor R) => sizes t = map sz r) ls ts ->
  exists ls' us, diagonalize_all ls ts = Some (ls', us) /\ Forall (@NoDup ascii) ls' /\ Forall2 (fun l' l => forall c, In c l' <-> In c l) ls' ls /\
    Forall2 (fun r (t : tensor R) => sizes t = map sz r) ls' us /\ forall e, prod_den ls' us e = prod_den ls ts e.
Proof.
  intros ls ts F. induction F as [|l t ls ts S F IH].
  - exists [], []. split; [reflexivity|]. split; [constructor|]. split; [constructor|]. split; [constructor|reflexivity].
  - destruct IH as (ls' & us & E & N & I & S' & P). destruct (diagonalize_letters (length l) [] l t) as (l' & u & E1 & N1 & I1 & S1 & D1); auto; [constructor|].
    cbn [diagonalize_all]. cbn [length app] in E1. rewrite E1. cbn [obind]. rewrite E. cbn [obind fst snd]. exists (l' :: ls'), (u :: us).
    split; [reflexivity|]. split; [now constructor|]. split; [constructor; [exact I1|auto]|]. split; [now constructor|].
    intros e. specialize (P e). unfold prod_den in *. cbn [combine map fold_right fst snd]. rewrite P, D1. reflexivity.
Qed.

(** ** From the letters to the result *)
Lemma summed_In : forall ins out c, In c (summed ins out) <-> In c (concat ins) /\ ~ In c out.
Proof.
  intros. unfold summed. rewrite nodup_In, filter_In. change (existsb (Ascii.eqb c) out) with (has out c). rewrite <- (has_In out c). destruct (has out c); cbn; intuition discriminate.
Qed.
Lemma summed_NoDup : forall ins out, NoDup (summed ins out).
Proof. intros. apply NoDup_nodup. Qed.
Lemma tokens_letters : forall ins ts out, ins <> [] -> Forall (@NoDup ascii) ins -> Forall2 (fun r (t : tensor R) => sizes t = map sz r) ins ts -> at_most_two ins out -> NoDup out -> incl out (concat ins) ->
  exists u, einsum_tokens zero plus times ins out ts = Some u /\ sizes u = map sz out /\ forall e, valid out e -> den out u e = sum_over (summed ins out) (prod_den ins ts) e.
Proof.
  intros ins ts out NE N F A No I. destruct ins as [|l ls]; [contradiction|]. inversion F as [|? x ? ts' Sx F']; subst. inversion_clear N as [|? ? Nl Ns]. cbn [einsum_tokens].
  destruct (matmul_all_letters ls ts' x l out Nl Ns Sx F' A) as (u & l' & S & E & NS & Su & IN & DO & V). rewrite E. cbn [obind fst snd].
  pose proof NS as NS0. apply nodup_split in NS0. destruct NS0 as (NS1 & Nl' & DS).
  destruct (last_letters u l' out Nl' No) as (v & Ev & Sv & Dv); [|exact Su|].
  { intros c Ic. assert (J : In c (S ++ l')) by (apply IN; now apply I). apply in_app_or in J. destruct J as [J|J]; [exfalso; exact (DO c J Ic)|exact J]. }
  exists v. split; [exact Ev|]. split; [exact Sv|]. intros e Ve. rewrite Dv. set (dr := filter (fun c => negb (has out c)) l') in *.
  assert (DR : forall c, In c dr <-> In c l' /\ ~ In c out).
  { intros c. unfold dr. rewrite filter_In, <- (has_In out c). destruct (has out c); cbn; intuition discriminate. }
  transitivity (sum_over (dr ++ S) (fun e' => times (den l x e') (prod_den ls ts' e')) e).
  - rewrite so_app. apply so_ext. intros e' O V'. apply V. intros c Ic. destruct (in_dec ascii_dec c out) as [J|J].
    + rewrite O by (rewrite DR; tauto). now apply Ve.
    + apply V'. apply DR. tauto.
  - change (fun e' => times (den l x e') (prod_den ls ts' e')) with (prod_den (l :: ls) (x :: ts')). apply so_perm.
    + apply NoDup_Permutation; [|apply summed_NoDup|].
      * apply nodup_app; [now apply filter_NoDup|auto|]. intros c Ic Jc. apply DR in Ic. exact (DS c Jc (proj1 Ic)).
      * intros c. rewrite summed_In. cbn [concat]. rewrite in_app_iff, DR, <- IN, in_app_iff. specialize (DO c). tauto.
    + apply nodup_app; [now apply filter_NoDup|auto|]. intros c Ic Jc. apply DR in Ic. exact (DS c Jc (proj1 Ic)).
    + eapply reads_ext. apply prod_den_reads.
Qed.
Lemma same_letters_concat : forall ls' ls, Forall2 (fun l' l : token => forall c, In c l' <-> In c l) ls' ls -> forall c, In c (concat ls') <-> In c (concat ls).
Proof. intros ls' ls F. induction F as [|a b x y H F IH]; intros c; [tauto|]. cbn [concat]. rewrite !in_app_iff, H, IH. tauto. Qed.
Lemma same_letters_count : forall ls' ls, Forall2 (fun l' l : token => forall c, In c l' <-> In c l) ls' ls -> forall c, operands_with c ls' = operands_with c ls.
Proof.
  intros ls' ls F. induction F as [|a b x y H F IH]; intros c; [reflexivity|]. rewrite !operands_cons, IH. f_equal. specialize (H c). rewrite <- !has_In in H. destruct (has a c), (has b c); intuition discriminate.
Qed.
Lemma diagonal_tokens_letters : forall ins ts out, ins <> [] -> Forall2 (fun r (t : tensor R) => sizes t = map sz r) ins ts -> at_most_two ins out -> NoDup out -> incl out (concat ins) ->
  exists ins' ts' u, diagonalize_all ins ts = Some (ins', ts') /\ Forall2 (fun l' l : token => forall c, In c l' <-> In c l) ins' ins /\
    einsum_tokens zero plus times ins' out ts' = Some u /\ sizes u = map sz out /\ forall e, valid out e -> den out u e = sum_over (summed ins out) (prod_den ins ts) e.
Proof.
  intros ins ts out NE F A No I. destruct (diagonalize_all_letters ins ts F) as (ls & us & E & N & SL & F' & P).
  destruct (tokens_letters ls us out) as (u & Eu & Su & Du); auto.
  - intros ->. inversion SL. subst. contradiction.
  - intros c Nc. rewrite (same_letters_count ls ins SL). now apply A.
  - intros c Ic. rewrite (same_letters_concat ls ins SL). now apply I.
  - exists ls, us, u. split; [exact E|]. split; [exact SL|]. split; [exact Eu|]. split; [exact Su|]. intros e V. rewrite (Du e V).
    rewrite (so_perm (summed ls out) (summed ins out)).
    + apply so_ext. intros e' _ _. apply P.
    + apply NoDup_Permutation; [apply summed_NoDup|apply summed_NoDup|]. intros c. rewrite !summed_In, (same_letters_concat ls ins SL). tauto.
    + apply summed_NoDup.
    + eapply reads_ext. apply prod_den_reads.
Qed.
Lemma value_of_app : forall a x b y c, length a = length x -> value_of (a ++ b) (x ++ y) c = if has a c then value_of a x c else value_of b y c.
Proof.
  induction a as [|k a IH]; intros [|v x] b y c L; cbn [length] in L; try lia; cbn [app value_of]; [reflexivity|]. unfold has. cbn [existsb]. unfold same_char at 1.
  destruct (Ascii.eqb c k); [reflexivity|]. cbn [orb]. rewrite IH by lia. reflexivity.
Qed.
Lemma bind_value : forall ds jx e c, NoDup ds -> length jx = length ds -> In c ds -> bind ds jx e c = value_of ds jx c.
Proof.
  induction ds as [|d ds IH]; intros [|j jx] e c N L I; cbn [length] in L; try lia; [destruct I|]. inversion_clear N as [|? ? Nd N']. cbn [bind value_of].
  destruct (Ascii.eqb c d) eqn:E.
  - apply eqb_iff in E. subst. rewrite bind_out by auto. unfold upd. now rewrite Ascii.eqb_refl.
  - destruct I as [->|I]; [rewrite Ascii.eqb_refl in E; discriminate|]. apply IH; auto.
Qed.
Lemma value_of_own : forall keys vals, NoDup keys -> length vals = length keys -> map (value_of keys vals) keys = vals.
Proof.
  intros keys vals N L. rewrite <- (bind_in keys vals (fun _ => 0) N L) at 2. apply map_ext_in. intros c I. symmetry. now apply bind_value.
Qed.
Lemma denotes_einsum : forall ins ts out u, NoDup out -> sizes u = map sz out -> (forall e, valid out e -> den out u e = sum_over (summed ins out) (prod_den ins ts) e) ->
  same u (einsum zero one plus times sz ins out ts).
Proof.
  intros ins ts out u No Su D. split; [exact Su|]. intros ix W. rewrite Su in W.
  assert (L : length ix = length out) by (apply within_length in W; now rewrite map_length in W).
  set (e := value_of out ix). assert (M : map e out = ix) by now apply value_of_own.
  assert (V : valid out e).
  { intros c I. pose proof (bind_valid out ix e No W c I) as B. rewrite bind_value in B by auto. exact B. }
  specialize (D e V). unfold den in D at 1. rewrite M in D. rewrite D. cbn [einsum elt]. rewrite so_indices. apply sum_ext. intros jx J. apply all_within, within_length in J. rewrite map_length in J.
  change (prod_den ins ts (bind (summed ins out) jx e) = prod_den ins ts (value_of (out ++ summed ins out) (ix ++ jx))). apply prod_den_reads. intros c I.
  rewrite value_of_app by auto. destruct (has out c) eqn:H.
  - apply has_In in H. rewrite bind_out; [reflexivity|]. rewrite summed_In. tauto.
  - apply has_not in H. apply bind_value; [apply summed_NoDup|auto|]. apply summed_In. tauto.
Qed.
End Sums.

(** * The text *)
Lemma letter_alpha : forall c, is_letter c -> alpha c = true.
Proof.
  intros c [[A B]|[A B]]; unfold alpha; [rewrite (proj2 (Nat.leb_le 65 _) A), (proj2 (Nat.leb_le _ 90) B); reflexivity|].
  rewrite (proj2 (Nat.leb_le 97 _) A), (proj2 (Nat.leb_le _ 122) B). apply orb_true_r.
Qed.
Lemma join_commas : forall ls, join ls = commas ls.
Proof. induction ls as [|a [|b r] IH]; [reflexivity|reflexivity|]. cbn [join commas] in *. now rewrite IH. Qed.
Lemma parse_letters : forall w r a ins res, Forall is_letter w -> parse (w ++ r) true a ins res = parse r true (a ++ w) ins res.
Proof.
  induction w as [|c w IH]; intros r a ins res F; [now rewrite app_nil_r|]. inversion_clear F. cbn [app parse]. rewrite letter_alpha by auto. rewrite IH by auto. now rewrite <- app_assoc.
Qed.
Lemma parse_result : forall w a ins res, Forall is_letter w -> parse w false a ins res = Some (ins, res ++ w).
Proof.
  induction w as [|c w IH]; intros a ins res F; cbn [parse]; [rewrite andb_false_r, app_nil_r; reflexivity|]. inversion_clear F. rewrite letter_alpha by auto. rewrite IH by auto. now rewrite <- app_assoc.
Qed.
Lemma parse_commas : forall ins r acc res, ins <> [] -> Forall (Forall is_letter) ins -> parse (commas ins ++ r) true [] acc res = parse r true (last ins []) (acc ++ removelast ins) res.
Proof.
  induction ins as [|a ins IH]; intros r acc res NE F; [contradiction|]. inversion_clear F as [|? ? Fa F']. destruct ins as [|b ins].
  - cbn [commas last removelast]. rewrite parse_letters by auto. now rewrite app_nil_r.
  - change (commas (a :: b :: ins)) with (a ++ ","%char :: commas (b :: ins)). rewrite <- app_assoc, parse_letters by auto. cbn [app]. change (parse ("," :: commas (b :: ins) ++ r)%char true a acc res) with (parse (commas (b :: ins) ++ r) true [] (acc ++ [a]) res).
    rewrite IH by (auto; discriminate). change (last (a :: b :: ins) []) with (last (b :: ins) []). change (removelast (a :: b :: ins)) with (a :: removelast (b :: ins)). now rewrite <- app_assoc.
Qed.
Lemma parse_written : forall ins out, ins <> [] -> Forall (Forall is_letter) ins -> Forall is_letter out -> parse_equation (written ins out) = Some (ins, out).
Proof.
  intros ins out NE F Fo. unfold parse_equation, written. rewrite parse_commas by auto. cbn [app arrow].
  change (parse ("-" :: ">" :: out)%char true (last ins []) (removelast ins) []) with (parse out false [] (removelast ins ++ [last ins []]) []).
  rewrite parse_result by auto. rewrite <- app_removelast_last by auto. reflexivity.
Qed.
Lemma parse_text : forall ins out, ins <> [] -> Forall (Forall is_letter) ins -> Forall is_letter out -> out <> [] \/ last ins [] <> [] -> parse_equation (equation_text ins out) = Some (ins, out).
Proof.
  intros ins out NE F Fo C. unfold equation_text. rewrite join_commas. destruct out as [|c out]; [|now apply parse_written].
  destruct C as [C|C]; [contradiction|]. unfold parse_equation. rewrite <- (app_nil_r (commas ins)), parse_commas by auto. cbn [parse app].
  destruct (last ins []) as [|x w] eqn:E; [contradiction|]. cbn [negb andb]. rewrite <- E, <- app_removelast_last by auto. reflexivity.
Qed.
Lemma parse_spaced : forall a b, spaced a b -> forall i t ins res, parse a i t ins res = parse b i t ins res.
Proof.
  intros a b H. induction H as [|a b H IH|a b H IH|c a b N1 N2 H IH]; intros i t ins res.
  - reflexivity.
  - rewrite <- IH. cbn [parse]. change (alpha " ") with false. change (same_char " " comma) with false. cbv iota. destruct a as [|d a]; [reflexivity|]. change (same_char " " minus) with false. reflexivity.
  - cbn [parse]. change (alpha "-") with false. change (same_char "-" comma) with false. change (same_char "-" minus && same_char ">" greater) with true. cbv iota. apply IH.
  - cbn [parse]. destruct (alpha c); [destruct i; apply IH|]. destruct (same_char c comma); [apply IH|]. unfold same_char. unfold minus, space. rewrite (eqb_no c "-"%char N1), (eqb_no c " "%char N2).
    cbn [andb]. destruct a, b; reflexivity.
Qed.
Lemma spaced_In : forall a b, spaced a b -> forall c, c <> " "%char -> In c a <-> In c b.
Proof.
  intros a b H c N. induction H as [|a b H IH|a b H IH|d a b N1 N2 H IH]; cbn [In]; [tauto| |tauto|tauto].
  split; [intros [E|I]; [congruence|tauto]|tauto].
Qed.
Lemma no_dots : forall l, ~ In dot l -> has_dots l = false.
Proof.
  induction l as [|a l IH]; intros N; [reflexivity|]. cbn [has_dots]. destruct l as [|b [|c l]]; [reflexivity|reflexivity|]. rewrite IH by (intros I; apply N; now right).
  unfold same_char. rewrite (eqb_no a dot) by (intros ->; apply N; now left). reflexivity.
Qed.
Lemma letter_not : forall c, is_letter c -> c <> dot /\ c <> space /\ c <> minus /\ c <> comma /\ c <> greater.
Proof. intros c H. apply letter_alpha in H. split; [|split; [|split; [|split]]]; intros ->; discriminate. Qed.
Lemma commas_no_dot : forall ins, Forall (Forall is_letter) ins -> ~ In dot (commas ins).
Proof.
  induction ins as [|a ins IH]; intros F; [intros []|]. inversion_clear F as [|? ? Fa F']. assert (D : ~ In dot a) by (intros I; rewrite Forall_forall in Fa; apply Fa in I; now apply letter_not in I).
  destruct ins as [|b ins]; [exact D|]. change (commas (a :: b :: ins)) with (a ++ ","%char :: commas (b :: ins)). rewrite in_app_iff. cbn [In]. intros [I|[I|I]]; [auto|discriminate|]. now apply IH.
Qed.
Lemma written_no_dot : forall ins out, Forall (Forall is_letter) ins -> Forall is_letter out -> ~ In dot (written ins out).
Proof.
  intros ins out F Fo. unfold written, arrow. rewrite !in_app_iff. cbn [In]. intros [I|[[I|[I|[]]]|I]]; try discriminate; [now apply commas_no_dot in I|].
  rewrite Forall_forall in Fo. apply Fo in I. now apply letter_not in I.
Qed.
Lemma letters_of_same : forall ls' ls, Forall2 (fun l' l : token => forall c, In c l' <-> In c l) ls' ls -> Forall (Forall is_letter) ls -> Forall (Forall is_letter) ls'.
Proof.
  intros ls' ls S F. induction S as [|a b x y H S IH]; [constructor|]. inversion_clear F as [|? ? Fb F']. constructor; [|now apply IH]. rewrite Forall_forall in *. intros c I. apply Fb. now apply H.
Qed.
Lemma last_same : forall ls' ls, Forall2 (fun l' l : token => forall c, In c l' <-> In c l) ls' ls -> last ls [] <> [] -> last ls' [] <> [].
Proof.
  intros ls' ls S. induction S as [|a b x y H S IH]; intros N; [contradiction|]. destruct S as [|a' b' x y H' S].
  - cbn [last] in *. intros ->. destruct b as [|c b]; [contradiction|]. apply (proj2 (H c)). now left.
  - apply IH. exact N.
Qed.
Lemma pipeline : forall R (zero one : R) plus times, semi_ring_theory zero one plus times eq ->
  forall size ins out ts cs, consistent size ins ts -> ins <> [] -> Forall (Forall is_letter) ins -> Forall is_letter out -> out <> [] \/ last ins [] <> [] ->
  at_most_two ins out -> NoDup out -> incl out (concat ins) -> parse_equation cs = Some (ins, out) ->
  exists u, (do p <- parse_equation cs; do q <- diagonalize_all (fst p) ts; do p <- parse_equation (equation_text (fst q) (snd p)); einsum_tokens zero plus times (fst p) (snd p) (snd q)) = Some u /\
            same u (einsum zero one plus times size ins out ts).
Proof.
  intros R zero one plus times RT size ins out ts cs [SZ F] NE FI FO C A No I P. rewrite P. cbn [obind fst snd].
  destruct (diagonal_tokens_letters zero one plus times RT size SZ ins ts out NE F A No I) as (ls & us & u & E & SL & Eu & Su & Du). rewrite E. cbn [obind fst snd].
  rewrite parse_text.
  - cbn [obind fst snd]. exists u. split; [exact Eu|]. now apply denotes_einsum.
  - intros ->. inversion SL. subst. contradiction.
  - eapply letters_of_same; eauto.
  - exact FO.
  - destruct C as [C|C]; [now left|right]. eapply last_same; eauto.
Qed.
Lemma einsum_proof : forall R (zero one : R) plus times, semi_ring_theory zero one plus times eq ->
  forall size ins out ts cs, spaced cs (written ins out) -> consistent size ins ts -> ins <> [] -> Forall (Forall is_letter) ins -> Forall is_letter out -> out <> [] \/ last ins [] <> [] ->
  at_most_two ins out -> NoDup out -> incl out (concat ins) ->
  exists u, dec_einsum zero plus times cs ts = Some u /\ same u (einsum zero one plus times size ins out ts).
Proof.
  intros R zero one plus times RT size ins out ts cs SP CO NE FI FO C A No I. unfold dec_einsum.
  rewrite no_dots. 2: { rewrite (spaced_In _ _ SP) by discriminate. now apply written_no_dot. } cbn [obind].
  apply pipeline; auto. unfold parse_equation. rewrite (parse_spaced _ _ SP). now apply parse_written.
Qed.

(** * The ellipsis *)
Lemma split_arrow_at : forall a b, ~ In minus a -> split_arrow (a ++ minus :: greater :: b) = Some (a, b).
Proof.
  induction a as [|c a IH]; intros b N; [reflexivity|]. cbn [app split_arrow]. destruct (a ++ minus :: greater :: b) as [|d r] eqn:E; [destruct a; discriminate|].
  unfold same_char at 1. rewrite (eqb_no c minus) by (intros ->; apply N; now left). cbn [andb]. rewrite <- E, IH by (intros I; apply N; now right). reflexivity.
Qed.
Lemma split_commas_word : forall w r cur, ~ In comma w -> split_commas (w ++ r) cur = split_commas r (cur ++ w).
Proof.
  induction w as [|c w IH]; intros r cur N; [now rewrite app_nil_r|]. cbn [app split_commas]. unfold same_char. rewrite (eqb_no c comma) by (intros ->; apply N; now left).
  rewrite IH by (intros I; apply N; now right). now rewrite <- app_assoc.
Qed.
Lemma split_commas_all : forall ls, ls <> [] -> Forall (fun w => ~ In comma w) ls -> split_commas (commas ls) [] = ls.
Proof.
  induction ls as [|a ls IH]; intros NE F; [contradiction|]. inversion_clear F as [|? ? Fa F']. destruct ls as [|b ls].
  - cbn [commas]. rewrite <- (app_nil_r a) at 1. rewrite split_commas_word by auto. reflexivity.
  - change (commas (a :: b :: ls)) with (a ++ ","%char :: commas (b :: ls)). rewrite split_commas_word by auto.
    change (split_commas ("," :: commas (b :: ls))%char ([] ++ a)) with (a :: split_commas (commas (b :: ls)) []). rewrite IH; [reflexivity|discriminate|auto].
Qed.
Lemma shown_chars : forall o c, spelled o -> In c (shown o) -> is_letter c \/ c = dot.
Proof.
  intros [pre post] c [F1 F2] I. cbn [fst snd] in *. unfold shown in I. cbn [fst snd] in I. apply in_app_or in I. rewrite Forall_forall in F1. destruct I as [I|I]; [left; auto|].
  destruct post as [post|]; [|destruct I]. cbn [dots app In] in I. rewrite Forall_forall in F2. destruct I as [<-|[<-|[<-|I]]]; auto.
Qed.
Lemma shown_no : forall o c, spelled o -> c = minus \/ c = comma -> ~ In c (shown o).
Proof. intros o c S H I. destruct (shown_chars o c S I) as [L| ->]; [apply letter_not in L; destruct H; tauto|destruct H; discriminate]. Qed.
Lemma explicit_rank_letters : forall w r, Forall is_letter w -> explicit_rank (w ++ r) = match explicit_rank r with Some n => Some (zlen w + n) | None => None end.
Proof.
  induction w as [|c w IH]; intros r F; [cbn [app]; destruct (explicit_rank r); reflexivity|]. inversion_clear F. cbn [app explicit_rank]. rewrite letter_alpha, IH by auto.
  destruct (explicit_rank r); cbn [obind]; [|reflexivity]. f_equal. unfold zlen. cbn [length]. lia.
Qed.
Lemma explicit_rank_shown : forall o, spelled o -> explicit_rank (shown o) = Some (zlen (own o)).
Proof.
  intros [pre post] [F1 F2]. unfold shown, own. cbn [fst snd] in *. destruct post as [post|].
  - rewrite explicit_rank_letters by auto. change (explicit_rank (dots ++ post)) with (explicit_rank post). rewrite <- (app_nil_r post) at 1. rewrite explicit_rank_letters by auto. cbn [explicit_rank].
    f_equal. unfold zlen. rewrite app_length. lia.
  - rewrite explicit_rank_letters by auto. cbn [explicit_rank]. f_equal. unfold zlen. rewrite app_length. cbn. lia.
Qed.
Lemma ellipsis_ranks_shown : forall ops ranks, Forall spelled ops -> Forall2 (fun o r => 0 <= covered r o) ops ranks ->
  ellipsis_ranks (map shown ops) ranks = Some (map (fun p => covered (snd p) (fst p)) (combine ops ranks)).
Proof.
  intros ops ranks S F. induction F as [|o r ops ranks C F IH]; [reflexivity|]. inversion_clear S as [|? ? So S']. cbn [map ellipsis_ranks combine fst snd]. rewrite explicit_rank_shown by auto. cbn [obind].
  unfold covered in C at 1. destruct (Z.ltb_spec (r - zlen (own o)) 0); [lia|]. rewrite IH by auto. reflexivity.
Qed.
Lemma fold_max : forall l a m, (forall x, In x l -> x <= m) -> a <= m -> In m l \/ a = m -> fold_left Z.max l a = m.
Proof.
  induction l as [|x l IH]; intros a m U A H; cbn [fold_left]; [destruct H as [[]|H]; exact H|]. apply IH.
  - intros y I. apply U. now right.
  - specialize (U x (or_introl eq_refl)). lia.
  - specialize (U x (or_introl eq_refl)). destruct H as [[->|I]|H]; [right; lia|now left|right; lia].
Qed.
Lemma fresh_props : forall ls used count max, NoDup ls -> count < max -> max - count <= zlen (filter (fun c => negb (has used c)) ls) ->
  zlen (fresh ls used count max) = max - count /\ NoDup (fresh ls used count max) /\ (forall c, In c (fresh ls used count max) -> In c ls /\ ~ In c used).
Proof.
  induction ls as [|c ls IH]; intros used count max N L E; [cbn [filter] in E; change (zlen (@nil ascii)) with 0 in E; lia|]. inversion_clear N as [|? ? Nc N']. cbn [fresh filter] in *. destruct (has used c) eqn:H; cbn [negb] in E.
  - destruct (IH used count max N' L E) as (A & B & C). split; [auto|]. split; [auto|]. intros d I. apply C in I. split; [now right|tauto].
  - destruct (Z.eqb_spec (count + 1) max) as [Q|Q].
    + split; [change (zlen [c]) with 1; lia|]. split; [repeat constructor; intros []|]. intros d [<-|[]]. split; [now left|now apply has_not].
    + destruct (IH used (count + 1) max N') as (A & B & C); [lia|unfold zlen in *; cbn [length] in E; lia|]. split; [unfold zlen in *; cbn [length]; lia|]. split.
      * constructor; [|auto]. intros I. apply C in I. tauto.
      * intros d [<-|I]; [split; [now left|now apply has_not]|]. apply C in I. split; [now right|tauto].
Qed.
Lemma fresh_all : forall ls used count max, max <= count -> fresh ls used count max = filter (fun c => negb (has used c)) ls.
Proof.
  induction ls as [|c ls IH]; intros used count max L; [reflexivity|]. cbn [fresh filter]. destruct (has used c); cbn [negb]; [now apply IH|]. destruct (Z.eqb_spec (count + 1) max); [lia|]. f_equal. apply IH. lia.
Qed.
Lemma dots_letters : forall w r, Forall is_letter w -> has_dots (w ++ dots ++ r) = true.
Proof.
  induction w as [|c w IH]; intros r F; [reflexivity|]. inversion_clear F. cbn [app has_dots]. specialize (IH r H0). destruct (w ++ dots ++ r) as [|a [|b q]]; [discriminate|discriminate|]. rewrite IH. apply orb_true_r.
Qed.
Lemma replace_letters : forall w r new, Forall is_letter w -> replace_dots (w ++ dots ++ r) new = w ++ new ++ r.
Proof.
  induction w as [|c w IH]; intros r new F; [reflexivity|]. inversion_clear F as [|? ? Fc Fw]. cbn [app replace_dots]. destruct (w ++ dots ++ r) as [|a [|b q]] eqn:E.
  - destruct w; discriminate.
  - destruct w as [|? [|]]; discriminate.
  - unfold same_char at 1. rewrite (eqb_no c dot) by (now apply letter_not). cbn [andb]. rewrite <- E, IH by auto. reflexivity.
Qed.
Lemma shown_dots : forall o, spelled o -> has_dots (shown o) = match snd o with Some _ => true | None => false end.
Proof.
  intros [pre post] [F1 F2]. unfold shown. cbn [fst snd] in *. destruct post as [post|]; [now apply dots_letters|]. rewrite app_nil_r. apply no_dots. rewrite Forall_forall in F1. intros I. apply F1, letter_not in I. tauto.
Qed.
Lemma replaced_shown : forall new max o r, spelled o -> max = zlen new -> 0 <= covered r o <= max -> replaced new max (shown o) (covered r o) = Some (filled new r o).
Proof.
  intros new max o r S M C. unfold replaced. rewrite shown_dots by auto. destruct o as [pre [post|]]; cbn [snd fst]; [|unfold filled, shown; cbn [fst snd]; now rewrite app_nil_r].
  destruct S as [F1 F2]. cbn [fst snd] in *. unfold filled, shown. cbn [fst snd]. fold (covered r (pre, Some post)). set (k := covered r (pre, Some post)) in *. rewrite !replace_letters by auto.
  destruct (Z.eqb_spec k max) as [E|N1].
  - do 3 f_equal. replace (length new - Z.to_nat k)%nat with O by (unfold zlen in *; lia). reflexivity.
  - destruct (Z.eqb_spec k 0) as [E|N2].
    + do 3 f_equal. rewrite E. cbn [Z.to_nat]. rewrite Nat.sub_0_r, skipn_all. reflexivity.
    + destruct (Z.ltb_spec (zlen new) k); [lia|]. do 4 f_equal. unfold zlen. lia.
Qed.
Lemma replaced_all_shown : forall new max ops ranks, Forall spelled ops -> max = zlen new -> Forall2 (fun o r => 0 <= covered r o <= max) ops ranks ->
  replaced_all new max (map shown ops) (map (fun p => covered (snd p) (fst p)) (combine ops ranks)) = Some (filled_all new ops ranks).
Proof.
  intros new max ops ranks S M F. induction F as [|o r ops ranks C F IH]; [reflexivity|]. inversion_clear S as [|? ? So S']. cbn [map combine fst snd replaced_all filled_all].
  rewrite replaced_shown by auto. cbn [obind]. rewrite IH by auto. reflexivity.
Qed.
Lemma used_letters : forall ops c, Forall spelled ops -> is_letter c -> In c (filter alpha (concat (map shown ops))) <-> In c (concat (map own ops)).
Proof.
  intros ops c S L. rewrite filter_In, (letter_alpha c L). induction S as [|o ops So S IH]; [cbn; tauto|]. cbn [map concat]. rewrite !in_app_iff. rewrite <- IH.
  assert (E : In c (shown o) <-> In c (own o)); [|tauto]. apply letter_not in L. unfold dot in L. unfold shown, own. rewrite !in_app_iff. destruct (snd o); [|tauto]. rewrite in_app_iff. unfold dots. cbn [In]. intuition congruence.
Qed.
Lemma lowercase_letters : forall c, In c lowercase -> is_letter c.
Proof. intros c I. right. cbn in I. repeat (destruct I as [<-|I]; [cbn; lia|]). destruct I. Qed.
Lemma lowercase_NoDup : NoDup lowercase.
Proof. unfold lowercase. cbn. repeat (constructor; [cbn; intuition discriminate|]). constructor. Qed.
Lemma commas_In : forall ls c, In c (commas ls) -> c = comma \/ exists w, In w ls /\ In c w.
Proof.
  induction ls as [|a ls IH]; intros c I; [destruct I|]. destruct ls as [|b ls]; [right; exists a; split; [now left|exact I]|].
  change (commas (a :: b :: ls)) with (a ++ ","%char :: commas (b :: ls)) in I. rewrite in_app_iff in I. cbn [In] in I. destruct I as [I|[I|I]].
  - right. exists a. split; [now left|auto].
  - left. auto.
  - destruct (IH c I) as [->|(w & Iw & Ic)]; [now left|]. right. exists w. split; [now right|auto].
Qed.
Lemma filter_unused : forall ops, Forall spelled ops -> filter (fun c => negb (has (filter alpha (concat (map shown ops))) c)) lowercase = unused ops.
Proof.
  intros ops S. unfold unused. change small_letters with lowercase. apply filter_ext_in. intros c I. f_equal. change (existsb (Ascii.eqb c) (concat (map own ops))) with (has (concat (map own ops)) c).
  apply eq_true_iff_eq. rewrite !has_In. apply used_letters; [exact S|now apply lowercase_letters].
Qed.
Lemma rewrite_general : forall ops out ranks m, ops <> [] -> commas (map shown ops) <> [] -> Forall spelled ops -> spelled out ->
  Forall2 (fun o r => 0 <= covered r o <= m) ops ranks -> (m = 0 \/ exists o r, In (o, r) (combine ops ranks) /\ covered r o = m) ->
  rewrite_ellipsis (commas (map shown ops) ++ arrow ++ shown out) ranks =
    let new := fresh lowercase (filter alpha (concat (map shown ops))) 0 m in
    do ts <- replaced_all new m (map shown ops) (map (fun p => covered (snd p) (fst p)) (combine ops ranks));
    Some (commas ts ++ " "%char :: arrow ++ " "%char :: match snd out with Some post => fst out ++ new ++ post | None => fst out end).
Proof.
  intros ops out ranks m NE NT S So F M. unfold rewrite_ellipsis.
  assert (L : zlen ops = zlen ranks) by (unfold zlen; f_equal; clear -F; induction F; cbn; auto).
  assert (NM : ~ In minus (commas (map shown ops))).
  { intros I. apply commas_In in I. destruct I as [I|(w & Iw & Ic)]; [discriminate|]. apply in_map_iff in Iw. destruct Iw as (o & <- & Io). rewrite Forall_forall in S. apply (shown_no o minus (S o Io)) in Ic; auto. }
  change (arrow ++ shown out) with (minus :: greater :: shown out). rewrite split_arrow_at by auto. cbn [obind fst snd].
  assert (OP : operands (commas (map shown ops)) = map shown ops).
  { unfold operands. destruct (commas (map shown ops)) eqn:E; [contradiction|]. rewrite <- E. apply split_commas_all; [destruct ops; [contradiction|discriminate]|].
    rewrite Forall_forall in *. intros w Iw. apply in_map_iff in Iw. destruct Iw as (o & <- & Io). apply shown_no; auto. }
  rewrite OP. unfold zlen at 1. rewrite map_length. fold (zlen ops). rewrite L, Z.eqb_refl. cbn [negb].
  rewrite ellipsis_ranks_shown; [|auto|]. 2: { clear -F. induction F; constructor; [lia|auto]. } cbn [obind].
  assert (MX : fold_left Z.max (map (fun p : operand * Z => covered (snd p) (fst p)) (combine ops ranks)) 0 = m).
  { apply fold_max.
    - intros x I. apply in_map_iff in I. destruct I as ([o r] & <- & I). cbn [fst snd]. clear -F I. induction F; cbn [combine In] in I; [destruct I|]. destruct I as [I|I]; [injection I as -> ->; lia|auto].
    - clear -F NE. destruct F; [contradiction|lia].
    - destruct M as [->|(o & r & I & E)]; [now right|]. left. apply in_map_iff. exists (o, r). split; [exact E|exact I]. }
  rewrite MX. cbv zeta. set (new := fresh lowercase _ 0 m). destruct (replaced_all _ _ _ _) as [ts|]; cbn [obind]; [|reflexivity]. rewrite join_commas. do 2 f_equal. cbn [app arrow]. do 4 f_equal.
  rewrite shown_dots by auto. destruct So as [F1 F2]. destruct out as [pre [post|]]; cbn [fst snd] in *; unfold shown; cbn [fst snd]; [now rewrite replace_letters|now rewrite app_nil_r].
Qed.
Lemma rewrite_fills : forall ops out ranks m, ops <> [] -> commas (map shown ops) <> [] -> Forall spelled ops -> spelled out ->
  Forall2 (fun o r => 0 <= covered r o <= m) ops ranks -> (exists o r, In (o, r) (combine ops ranks) /\ covered r o = m) -> 0 < m <= zlen (unused ops) ->
  exists new, zlen new = m /\ NoDup new /\ Forall is_letter new /\ (forall c, In c new -> ~ In c (concat (map own ops))) /\
    rewrite_ellipsis (commas (map shown ops) ++ arrow ++ shown out) ranks =
      Some (commas (filled_all new ops ranks) ++ " "%char :: arrow ++ " "%char :: filled new (zlen (own out) + m) out).
Proof.
  intros ops out ranks m NE NT S So F M [P U]. pose proof (rewrite_general ops out ranks m NE NT S So F (or_intror M)) as E. cbv zeta in E. rewrite <- (filter_unused ops S) in U.
  pose proof (fresh_props lowercase (filter alpha (concat (map shown ops))) 0 m lowercase_NoDup P) as H. rewrite Z.sub_0_r in H. specialize (H U).
  revert E H. generalize (fresh lowercase (filter alpha (concat (map shown ops))) 0 m). intros new E (A & B & C). exists new. split; [exact A|]. split; [exact B|]. split.
  { apply Forall_forall. intros c I. apply C in I. now apply lowercase_letters. }
  split.
  { intros c I J. apply C in I. destruct I as [I N]. apply N. apply used_letters; auto. now apply lowercase_letters. }
  rewrite E, replaced_all_shown by auto. cbn [obind]. unfold filled. destruct (snd out) as [post|]; [|reflexivity].
  replace (length new - Z.to_nat (zlen (own out) + m - zlen (own out)))%nat with O by (unfold zlen in *; lia). reflexivity.
Qed.
Lemma spaced_refl : forall w a b, (forall c, In c w -> c <> "-"%char /\ c <> " "%char) -> spaced a b -> spaced (w ++ a) (w ++ b).
Proof. induction w as [|c w IH]; intros a b H S; [exact S|]. cbn [app]. destruct (H c (or_introl eq_refl)). apply spaced_char; auto. apply IH; [|auto]. intros d I. apply H. now right. Qed.
Lemma filled_letters : forall new ops ranks, Forall is_letter new -> Forall spelled ops -> Forall (Forall is_letter) (filled_all new ops ranks).
Proof.
  intros new ops. induction ops as [|o ops IH]; intros [|r ranks] N S; cbn [filled_all]; try constructor; inversion_clear S as [|? ? [F1 F2] S']; [|now apply IH].
  unfold filled. destruct (snd o) as [post|]; [|auto]. rewrite Forall_forall in *. intros c I. rewrite !in_app_iff in I. destruct I as [I|[I|I]]; auto. apply N. rewrite <- (firstn_skipn (length new - Z.to_nat (r - zlen (own o))) new). apply in_or_app. now right.
Qed.
Lemma has_dots_app : forall a b, has_dots b = true -> has_dots (a ++ b) = true.
Proof.
  induction a as [|x a IH]; intros b H; [exact H|]. cbn [app has_dots]. specialize (IH b H). destruct (a ++ b) as [|y [|z q]]; [discriminate|discriminate|]. rewrite IH. apply orb_true_r.
Qed.
Lemma has_dots_more : forall a b, has_dots a = true -> has_dots (a ++ b) = true.
Proof.
  induction a as [|x a IH]; intros b H; [discriminate|]. cbn [app has_dots] in *. destruct a as [|y [|z a]]; [discriminate|discriminate|]. cbn [app] in *. destruct (same_char x dot && same_char y dot && same_char z dot); [reflexivity|]. cbn [orb] in *. now apply IH.
Qed.
Lemma commas_dots : forall ls w, In w ls -> has_dots w = true -> has_dots (commas ls) = true.
Proof.
  induction ls as [|a ls IH]; intros w I H; [destruct I|]. destruct ls as [|b ls]; [destruct I as [->|[]]; exact H|]. change (commas (a :: b :: ls)) with (a ++ ","%char :: commas (b :: ls)).
  destruct I as [->|I]; [now apply has_dots_more|]. apply has_dots_app. change (","%char :: commas (b :: ls)) with ([","%char] ++ commas (b :: ls)). apply has_dots_app. now apply (IH w).
Qed.
Lemma ellipsis_proof : forall R (zero one : R) plus times, semi_ring_theory zero one plus times eq ->
  forall ops out (ts : list (tensor R)) m, ops <> [] -> commas (map shown ops) <> [] -> Forall spelled ops -> spelled out ->
  (exists o, In o ops /\ snd o <> None) -> Forall2 (fun o t => 0 <= covered (rank t) o <= m) ops ts -> (exists o t, In (o, t) (combine ops ts) /\ covered (rank t) o = m) -> 0 < m <= zlen (unused ops) ->
  exists new, zlen new = m /\ NoDup new /\ Forall is_letter new /\ (forall c, In c new -> ~ In c (concat (map own ops))) /\
    forall size, let ins := filled_all new ops (map rank ts) in let res := filled new (zlen (own out) + m) out in
      consistent size ins ts -> res <> [] \/ last ins [] <> [] -> at_most_two ins res -> NoDup res -> incl res (concat ins) ->
      exists u, dec_einsum zero plus times (commas (map shown ops) ++ arrow ++ shown out) ts = Some u /\ same u (einsum zero one plus times size ins res ts).
Proof.
  intros R zero one plus times RT ops out ts m NE NT S So (od & Iod & Nod) F (o & t & Im & Em) U.
  destruct (rewrite_fills ops out (map rank ts) m) as (new & Ln & Nn & Fn & Dn & E); auto.
  - clear -F. induction F; constructor; auto.
  - exists o, (rank t). split; [|auto]. clear -Im. revert ts Im. induction ops as [|a ops IH]; intros [|b ts] I; cbn [combine map] in *; try destruct I as []. 1: { left. congruence. } right. now apply IH.
  - exists new. split; [auto|]. split; [auto|]. split; [auto|]. split; [auto|]. intros size ins res CO C A No I. unfold dec_einsum.
    rewrite has_dots_more. 2: { apply (commas_dots _ (shown od)); [now apply in_map|]. rewrite shown_dots by (rewrite Forall_forall in S; auto). destruct (snd od); [reflexivity|contradiction]. }
    rewrite E. cbn [obind]. fold ins res.
    assert (FI : Forall (Forall is_letter) ins) by now apply filled_letters.
    assert (FR : Forall is_letter res).
    { pose proof (filled_letters new [out] [zlen (own out) + m] Fn ltac:(repeat constructor; apply So)) as H. now inversion_clear H. }
    assert (NI : ins <> []) by (unfold ins; destruct F; [contradiction|discriminate]).
    apply (pipeline R zero one plus times RT size ins res ts); auto.
    assert (SP : spaced (commas ins ++ " "%char :: arrow ++ " "%char :: res) (written ins res)).
    { unfold written. apply spaced_refl.
      - intros c Ic. apply commas_In in Ic. destruct Ic as [->|(w & Iw & Ic)]; [split; discriminate|]. rewrite Forall_forall in FI. specialize (FI w Iw). rewrite Forall_forall in FI. apply FI, letter_not in Ic. unfold minus, space in Ic. tauto.
      - apply spaced_space. cbn [arrow app]. apply spaced_arrow. apply spaced_space. rewrite <- (app_nil_r res). apply spaced_refl; [|constructor].
        intros c Ic. rewrite Forall_forall in FR. apply FR, letter_not in Ic. unfold minus, space in Ic. tauto. }
    unfold parse_equation. rewrite (parse_spaced _ _ SP). now apply parse_written.
Qed.

(** * What goes wrong *)
Lemma matmul_all_short : forall R (zero : R) plus times ts ls x l out, (length ls < length ts)%nat -> matmul_all zero plus times x l ts ls out = None.
Proof.
  intros R zero plus times ts. induction ts as [|t ts IH]; intros ls x l out L; cbn [length] in L; [lia|]. cbn [matmul_all]. destruct ls as [|r ls]; [reflexivity|].
  destruct (perform_matmul zero plus times x l t r out) as [p|]; cbn [obind]; [|reflexivity]. apply IH. cbn [length] in L. lia.
Qed.
Lemma parse_text_lost : forall ins, ins <> [] -> Forall (Forall is_letter) ins -> last ins [] = [] -> exists r, parse_equation (equation_text ins []) = Some (r, []) /\ S (length r) = length ins.
Proof.
  intros ins NE F L. unfold equation_text. rewrite join_commas. unfold parse_equation. rewrite <- (app_nil_r (commas ins)), parse_commas by auto. rewrite L. cbn [parse negb andb app].
  eexists. split; [reflexivity|]. pose proof (f_equal (@length letters) (app_removelast_last [] NE)) as E. rewrite app_length in E. cbn [length] in E. symmetry. etransitivity; [exact E|apply Nat.add_1_r].
Qed.
Lemma last_scalar_proof : forall R (zero one : R) plus times, semi_ring_theory zero one plus times eq -> forall size ins (ts : list (tensor R)), consistent size ins ts -> ins <> [] -> Forall (Forall is_letter) ins -> last ins [] = [] ->
  dec_einsum zero plus times (written ins []) ts = None.
Proof.
  intros R zero one plus times RT size ins ts [SZ F] NE FI L. unfold dec_einsum. rewrite no_dots by (apply written_no_dot; auto). cbn [obind]. rewrite parse_written by auto. cbn [obind fst snd].
  destruct (diagonalize_all_letters one times size SZ ins ts F) as (ls & us & E & _ & SL & F' & _). rewrite E. cbn [obind fst snd].
  assert (NL : ls <> []) by (intros ->; inversion SL; subst; contradiction).
  assert (LL : last ls [] = []).
  { clear -SL L NE. induction SL as [|a b x y H S IH]; [reflexivity|]. destruct S as [|a' b' x y H' S].
    - cbn [last] in *. subst b. destruct a as [|c a]; [reflexivity|]. exfalso. apply (proj1 (H c)). now left.
    - apply IH; [discriminate|exact L]. }
  destruct (parse_text_lost ls NL (letters_of_same _ _ SL FI) LL) as (r & -> & Lr). cbn [obind fst snd].
  unfold letters, token in *. assert (LE : length us = length ls) by (clear -F'; induction F'; cbn; auto).
  destruct r as [|l r]; [reflexivity|]. destruct us as [|x us]; [cbn [length] in LE; lia|]. cbn [einsum_tokens]. rewrite matmul_all_short; [reflexivity|]. cbn [length] in LE, Lr. apply Nat.succ_lt_mono. rewrite LE. rewrite <- Lr. apply Nat.lt_succ_diag_r.
Qed.
Lemma no_arrow_proof : forall R (zero one : R) plus times, semi_ring_theory zero one plus times eq -> forall size ins (ts : list (tensor R)), consistent size ins ts -> ins <> [] -> Forall (Forall is_letter) ins -> last ins [] <> [] -> at_most_two ins [] ->
  exists u, dec_einsum zero plus times (commas ins) ts = Some u /\ same u (einsum zero one plus times size ins [] ts).
Proof.
  intros R zero one plus times RT size ins ts CO NE FI L A. unfold dec_einsum. rewrite no_dots by now apply commas_no_dot. cbn [obind].
  apply pipeline; auto; [constructor|intros c []|]. change (commas ins) with (commas ins). rewrite <- join_commas. change (join ins) with (equation_text ins []). apply parse_text; auto.
Qed.
