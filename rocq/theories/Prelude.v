(** Shared helpers: Python-style list access, integer lists, option monad.
    These are library notions (Python list semantics), not models of /repo code. *)
From Coq Require Import ZArith List Lia Bool ZifyBool Permutation.
Import ListNotations.
Open Scope Z_scope.

Global Arguments Z.mul : simpl never.
Global Arguments Z.add : simpl never.
Global Arguments Z.sub : simpl never.
Global Arguments Z.opp : simpl never.
Global Arguments Z.div : simpl never.
Global Arguments Z.modulo : simpl never.
Global Arguments Z.of_nat : simpl never.
Global Arguments Z.to_nat : simpl never.

Ltac Zify.zify_post_hook ::= Z.div_mod_to_equations.

(** Option monad: [None] is a raised Python exception / failed assertion. *)
Definition obind {A B} (o : option A) (f : A -> option B) : option B :=
  match o with Some a => f a | None => None end.
Notation "'do' x <- e ; f" := (obind e (fun x => f))
  (at level 200, x pattern, e at level 100, f at level 200, right associativity).
Definition guard (b : bool) : option unit := if b then Some tt else None.
Notation "'assert' b ; f" := (obind (guard b) (fun _ => f))
  (at level 200, b at level 100, f at level 200, right associativity).

Fixpoint mapM {A B} (f : A -> option B) (l : list A) : option (list B) :=
  match l with
  | [] => Some []
  | x :: r => do y <- f x; do ys <- mapM f r; Some (y :: ys)
  end.

Fixpoint foldM {A S} (f : S -> A -> option S) (l : list A) (s : S) : option S :=
  match l with
  | [] => Some s
  | x :: r => do s' <- f s x; foldM f r s'
  end.

(** Python [len]. *)
Definition zlen {A} (l : list A) : Z := Z.of_nat (length l).

(** Python [l[i]], negative indices count from the end, IndexError = None. *)
Definition pyidx {A} (l : list A) (i : Z) : option A :=
  let j := if i <? 0 then i + zlen l else i in
  if j <? 0 then None else nth_error l (Z.to_nat j).

Fixpoint set_nth {A} (n : nat) (v : A) (l : list A) : list A :=
  match l, n with
  | [], _ => []
  | _ :: r, O => v :: r
  | x :: r, S n' => x :: set_nth n' v r
  end.

(** Python [l[i] = v]. *)
Definition pyset {A} (l : list A) (i : Z) (v : A) : option (list A) :=
  let j := if i <? 0 then i + zlen l else i in
  if (j <? 0) || (zlen l <=? j) then None else Some (set_nth (Z.to_nat j) v l).

(** Python slice bound clamping (step 1). *)
Definition clampb (n i : Z) : Z :=
  let j := if i <? 0 then i + n else i in
  Z.max 0 (Z.min j n).

(** Python [l[a:b]]. *)
Definition pyslice {A} (l : list A) (a b : Z) : list A :=
  let a' := clampb (zlen l) a in let b' := clampb (zlen l) b in
  firstn (Z.to_nat (b' - a')) (skipn (Z.to_nat a') l).
Definition slice_from {A} (l : list A) (a : Z) : list A :=
  skipn (Z.to_nat (clampb (zlen l) a)) l.
Definition slice_to {A} (l : list A) (b : Z) : list A :=
  firstn (Z.to_nat (clampb (zlen l) b)) l.

(** Python [range(n)] / [range(a, b)]. *)
Definition zrange (a b : Z) : list Z :=
  map (fun k => a + Z.of_nat k) (seq 0 (Z.to_nat (b - a))).

Definition sumZ (l : list Z) : Z := fold_right Z.add 0 l.
Definition prodZ (l : list Z) : Z := fold_right Z.mul 1 l.

(** Sum of products of two index/stride lists. *)
Fixpoint dot (xs ys : list Z) : Z :=
  match xs, ys with
  | x :: xs', y :: ys' => x * y + dot xs' ys'
  | _, _ => 0
  end.

(** [idx] is a valid multi-index of a tensor of sizes [sh]. *)
Definition in_bounds (idx sh : list Z) : Prop :=
  Forall2 (fun i n => 0 <= i < n) idx sh.

(** All multi-indices of a tensor of sizes [sh], row-major. *)
Fixpoint all_indices (sh : list Z) : list (list Z) :=
  match sh with
  | [] => [[]]
  | n :: r => flat_map (fun i => map (cons i) (all_indices r)) (zrange 0 n)
  end.

(** ** Lemmas *)

Lemma zlen_nonneg : forall A (l : list A), 0 <= zlen l.
Proof. intros; unfold zlen; lia. Qed.

Lemma zlen_nil : forall A, zlen (@nil A) = 0.
Proof. reflexivity. Qed.

Lemma zlen_cons : forall A (x : A) l, zlen (x :: l) = 1 + zlen l.
Proof. intros; unfold zlen; simpl length; lia. Qed.

Lemma zlen_app : forall A (l r : list A), zlen (l ++ r) = zlen l + zlen r.
Proof. intros; unfold zlen; rewrite app_length; lia. Qed.

Lemma zlen_map : forall A B (f : A -> B) l, zlen (map f l) = zlen l.
Proof. intros; unfold zlen; now rewrite map_length. Qed.

Lemma in_zrange : forall a b x, In x (zrange a b) <-> a <= x < b.
Proof.
  intros a b x. unfold zrange. rewrite in_map_iff. split.
  - intros [k [<- H]]. rewrite in_seq in H. lia.
  - intros H. exists (Z.to_nat (x - a)). rewrite in_seq. lia.
Qed.

Lemma zlen_zrange : forall a b, zlen (zrange a b) = Z.max 0 (b - a).
Proof. intros; unfold zlen, zrange; rewrite map_length, seq_length; lia. Qed.

Lemma NoDup_map_inj : forall A B (f : A -> B) l,
  (forall x y, In x l -> In y l -> f x = f y -> x = y) -> NoDup l -> NoDup (map f l).
Proof.
  induction l as [|a l IH]; simpl; intros Hinj Hnd; constructor; inversion Hnd; subst.
  - rewrite in_map_iff. intros [y [Hy Hin]].
    assert (y = a) by (apply Hinj; auto). subst. contradiction.
  - apply IH; auto.
Qed.

Lemma NoDup_zrange : forall a b, NoDup (zrange a b).
Proof.
  intros; unfold zrange; apply NoDup_map_inj; [|apply seq_NoDup].
  intros; lia.
Qed.

Lemma zrange_nil : forall a b, b <= a -> zrange a b = [].
Proof. intros; unfold zrange; replace (Z.to_nat (b - a)) with O by lia; reflexivity. Qed.

Lemma zrange_cons : forall a b, a < b -> zrange a b = a :: zrange (a + 1) b.
Proof.
  intros a b H. unfold zrange.
  replace (Z.to_nat (b - a)) with (S (Z.to_nat (b - (a + 1)))) by lia.
  simpl. f_equal; [lia|].
  rewrite <- seq_shift, map_map. apply map_ext. intros; lia.
Qed.

Lemma zrange_snoc : forall a b, a <= b -> zrange a (b + 1) = zrange a b ++ [b].
Proof.
  intros a b H. unfold zrange.
  replace (Z.to_nat (b + 1 - a)) with (S (Z.to_nat (b - a))) by lia.
  rewrite seq_S, map_app. simpl. repeat f_equal. lia.
Qed.

Lemma in_all_indices : forall sh idx, In idx (all_indices sh) <-> in_bounds idx sh.
Proof.
  unfold in_bounds.
  induction sh as [|n r IH]; intros idx; simpl.
  - split.
    + intros [<-|[]]; constructor.
    + intros H; inversion H; auto.
  - rewrite in_flat_map. split.
    + intros [i [Hi Hin]]. apply in_map_iff in Hin. destruct Hin as [t [<- Ht]].
      apply in_zrange in Hi. constructor; [lia|]. now apply IH.
    + intros H. inversion H; subst. exists x. split; [apply in_zrange; lia|].
      apply in_map. now apply IH.
Qed.

Lemma set_nth_length : forall A n (v : A) l, length (set_nth n v l) = length l.
Proof. induction n; destruct l; simpl; auto. Qed.

Lemma nth_error_set_nth_eq : forall A n (v : A) l,
  (n < length l)%nat -> nth_error (set_nth n v l) n = Some v.
Proof.
  induction n; destruct l; simpl; intros; try lia; auto. apply IHn; lia.
Qed.

Lemma nth_error_set_nth_neq : forall A n m (v : A) l,
  n <> m -> nth_error (set_nth n v l) m = nth_error l m.
Proof.
  induction n; destruct l, m; simpl; intros; try congruence; auto.
Qed.

Lemma mapM_length : forall A B (f : A -> option B) l r, mapM f l = Some r -> length r = length l.
Proof.
  induction l; simpl; intros r H.
  - now inversion H.
  - destruct (f a); simpl in H; [|discriminate].
    destruct (mapM f l); simpl in H; [|discriminate].
    inversion H; simpl; auto.
Qed.

Lemma mapM_Forall2 : forall A B (f : A -> option B) l r,
  mapM f l = Some r <-> Forall2 (fun a b => f a = Some b) l r.
Proof.
  induction l; simpl; intros r; split; intros H.
  - inversion H; constructor.
  - inversion H; reflexivity.
  - destruct (f a) eqn:E; simpl in H; [|discriminate].
    destruct (mapM f l) eqn:E2; simpl in H; [|discriminate].
    inversion H; constructor; auto. now apply IHl.
  - inversion H; subst. rewrite H2. simpl.
    assert (mapM f l = Some l') as -> by now apply IHl. reflexivity.
Qed.

Lemma mapM_none : forall A B (f : A -> option B) l,
  mapM f l = None <-> exists a, In a l /\ f a = None.
Proof.
  induction l; simpl; split; intros H.
  - discriminate.
  - destruct H as [? [[] _]].
  - destruct (f a) eqn:E; simpl in H.
    + destruct (mapM f l) eqn:E2; simpl in H; [discriminate|].
      destruct (proj1 IHl eq_refl) as [x [? ?]]. eauto.
    + eauto.
  - destruct H as [x [[<-|Hin] Hx]].
    + now rewrite Hx.
    + destruct (f a); simpl; auto.
      assert (mapM f l = None) as -> by (apply IHl; eauto). reflexivity.
Qed.

Lemma guard_true : forall b, guard b = Some tt <-> b = true.
Proof. destruct b; simpl; split; congruence. Qed.

Lemma sumZ_app : forall a b, sumZ (a ++ b) = sumZ a + sumZ b.
Proof. induction a; simpl; intros; [auto|rewrite IHa; lia]. Qed.

Lemma prodZ_app : forall a b, prodZ (a ++ b) = prodZ a * prodZ b.
Proof. induction a; simpl; intros; [lia|rewrite IHa; ring]. Qed.

Lemma prodZ_nonneg : forall l, Forall (fun x => 0 <= x) l -> 0 <= prodZ l.
Proof. induction 1; simpl; nia. Qed.

Lemma prodZ_pos : forall l, Forall (fun x => 0 < x) l -> 0 < prodZ l.
Proof. induction 1; simpl; nia. Qed.

Lemma prodZ_perm : forall a b, Permutation a b -> prodZ a = prodZ b.
Proof. induction 1; simpl; try congruence; ring. Qed.

Lemma sumZ_perm : forall a b, Permutation a b -> sumZ a = sumZ b.
Proof. induction 1; simpl; lia. Qed.

Lemma clampb_range : forall n i, 0 <= n -> 0 <= clampb n i <= n.
Proof. intros; unfold clampb; destruct (i <? 0); lia. Qed.

Lemma Forall2_len : forall A B (R : A -> B -> Prop) l r, Forall2 R l r -> length l = length r.
Proof. induction 1; simpl; auto. Qed.

Lemma nth_error_Forall2 : forall A B (R : A -> B -> Prop) l r,
  Forall2 R l r -> forall n a b, nth_error l n = Some a -> nth_error r n = Some b -> R a b.
Proof.
  induction 1; intros [|n] a b; simpl; intros; try discriminate; try congruence.
  eauto.
Qed.

Lemma NoDup_app_inv : forall A (l m : list A), NoDup (l ++ m) ->
  NoDup l /\ NoDup m /\ (forall x, In x l -> ~ In x m).
Proof.
  induction l; simpl; intros m H; [repeat split; auto; constructor|].
  inversion H; subst. destruct (IHl _ H3) as (? & ? & ?).
  rewrite in_app_iff in H2. repeat split; auto.
  - constructor; tauto.
  - intros x [<-|Hx]; auto.
Qed.

Lemma NoDup_app_intro : forall A (l m : list A), NoDup l -> NoDup m ->
  (forall x, In x l -> ~ In x m) -> NoDup (l ++ m).
Proof.
  induction l; simpl; intros m Hl Hm Hd; auto. inversion Hl; subst.
  constructor; auto. rewrite in_app_iff. intros [Hc|Hc]; auto. apply (Hd a); auto.
Qed.

Lemma Forall2_imp_in : forall A B (R Q : A -> B -> Prop) l r,
  Forall2 R l r -> (forall a b, In a l -> In b r -> R a b -> Q a b) -> Forall2 Q l r.
Proof.
  induction 1; intros HQ; constructor.
  - apply HQ; simpl; auto.
  - apply IHForall2. intros. apply HQ; simpl; auto.
Qed.

Lemma Forall2_imp : forall A B (R Q : A -> B -> Prop) l r,
  (forall a b, R a b -> Q a b) -> Forall2 R l r -> Forall2 Q l r.
Proof. intros; eapply Forall2_imp_in; eauto. Qed.

(** Inversion tactic for chains in the option monad. *)
Ltac obind_inv H :=
  repeat match type of H with
  | obind ?e _ = Some _ =>
      let E := fresh "E" in destruct e eqn:E; simpl in H; [|discriminate H]
  end.
