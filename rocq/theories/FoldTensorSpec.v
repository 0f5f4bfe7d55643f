(** What the elements of a tensor are, independently of how a literal stores them. *)
From Coq Require Import ZArith Lia List Bool.
From Verif Require Import Prelude FoldTensorModel.
Import ListNotations.
Open Scope Z_scope.

(** All indices of a tensor with these sizes, in row-major order. *)
Fixpoint indices (sizes : list Z) : list (list Z) :=
  match sizes with
  | [] => [[]]
  | n :: r => flat_map (fun i => map (cons i) (indices r)) (zrange 0 n)
  end.
(** A list of elements is the tensor whose element at each index is given by f. *)
Definition holds {A} (sizes : list Z) (elements : list A) (f : list Z -> A) : Prop := elements = map f (indices sizes).
(** A literal of a tensor; in a splat all elements are the same. *)
Definition literal_of {A} (l : literal A) (f : list Z -> A) : Prop :=
  Forall (fun n => 0 <= n) (l_sizes l) /\ holds (l_sizes l) (l_elements l) f /\
  (l_splat l = true -> forall x y, In x (l_elements l) -> In y (l_elements l) -> x = y).
(** Change one component. *)
Fixpoint at_axis {A} (d : nat) (g : A -> A) (l : list A) : list A :=
  match d, l with
  | _, [] => []
  | O, x :: r => g x :: r
  | S d, x :: r => x :: at_axis d g r
  end.
(** Exchange two components. *)
Definition swap {A} (a b : nat) (l : list A) : list A :=
  match nth_error l a, nth_error l b with
  | Some x, Some y => at_axis b (fun _ => x) (at_axis a (fun _ => y) l)
  | _, _ => l
  end.
(** Insert and remove one component. *)
Fixpoint insert {A} (d : nat) (x : A) (l : list A) : list A :=
  match d, l with
  | O, _ => x :: l
  | S d, y :: r => y :: insert d x r
  | S _, [] => [x]
  end.
Fixpoint remove {A} (d : nat) (l : list A) : list A :=
  match d, l with
  | _, [] => []
  | O, _ :: r => r
  | S d, y :: r => y :: remove d r
  end.

Definition within (sizes idx : list Z) : Prop := Forall2 (fun n i => 0 <= i < n) sizes idx.
Lemma in_zrange : forall a b k, In k (zrange a b) <-> a <= k < b.
Proof.
  intros a b k. split.
  - remember (Z.to_nat (b - a)) as q eqn:Eq. revert a Eq. induction q as [|q IH]; intros a Eq H.
    + rewrite zrange_nil in H by lia. destruct H.
    + rewrite zrange_cons in H by lia. destruct H as [<-|H]; [lia|]. specialize (IH (a + 1) ltac:(lia) H). lia.
  - remember (Z.to_nat (b - a)) as q eqn:Eq. revert a Eq. induction q as [|q IH]; intros a Eq H; [lia|].
    rewrite zrange_cons by lia. destruct (Z.eq_dec a k) as [->|N]; [now left|]. right. apply IH; lia.
Qed.
Lemma in_indices : forall sizes idx, In idx (indices sizes) <-> within sizes idx.
Proof.
  induction sizes as [|n r IH]; intros idx; cbn [indices].
  - split; [intros [<-|[]]; constructor|intros H; inversion H; now left].
  - rewrite in_flat_map. split.
    + intros (i & Hi & Hx). apply in_map_iff in Hx as (j & <- & Hj). apply in_zrange in Hi. constructor; [auto|]. now apply IH.
    + intros H. inversion H as [|? i ? j Hi Hj]. subst. exists i. split; [now apply in_zrange|]. apply in_map_iff. exists j. split; auto. now apply IH.
Qed.
Lemma product_nonneg : forall s, Forall (fun n => 0 <= n) s -> 0 <= product s.
Proof. intros s H. induction H as [|n r Hn _ IH]; unfold product in *; cbn [fold_right]; [lia|]. now apply Z.mul_nonneg_nonneg. Qed.
Lemma zlen_flat_map : forall A B (g : A -> list B) l m, (forall x, In x l -> zlen (g x) = m) -> zlen (flat_map g l) = zlen l * m.
Proof.
  intros A B g l m H. induction l as [|x l IH]; cbn [flat_map]; [rewrite !zlen_nil; ring|]. rewrite zlen_app, zlen_cons, (H x), IH; [ring| |now left].
  intros y Hy. apply H. now right.
Qed.
Lemma zlen_indices : forall s, Forall (fun n => 0 <= n) s -> zlen (indices s) = product s.
Proof.
  intros s H. induction H as [|n r Hn _ IH]; [reflexivity|]. cbn [indices]. rewrite (zlen_flat_map _ _ _ _ (product r)).
  - rewrite zlen_zrange. unfold product at 2. cbn [fold_right]. change (fold_right Z.mul 1 r) with (product r). rewrite Z.max_r by lia. ring.
  - intros i _. now rewrite zlen_map.
Qed.
Lemma zlen_holds : forall A s (e : list A) f, Forall (fun n => 0 <= n) s -> holds s e f -> zlen e = product s.
Proof. intros A s e f H ->. rewrite zlen_map. now apply zlen_indices. Qed.

(** Row-major positions. *)
Fixpoint position (sizes idx : list Z) : Z :=
  match sizes, idx with
  | _ :: r, i :: j => i * product r + position r j
  | _, _ => 0
  end.
Lemma position_range : forall sizes idx, within sizes idx -> 0 <= position sizes idx < product sizes.
Proof.
  intros sizes idx H. induction H as [|n i r j Hi H IH]; [cbn; lia|]. cbn [position]. change (product (n :: r)) with (n * product r).
  clear - Hi IH. revert Hi IH. generalize (product r) (position r j). intros m q Hi IH. assert (i * m <= (n - 1) * m) by (apply Z.mul_le_mono_nonneg_r; lia).
  assert (0 <= i * m) by (apply Z.mul_nonneg_nonneg; lia). lia.
Qed.
Lemma nth_flat_map : forall A (g : Z -> list A) m n i k, 0 <= m -> (forall x, 0 <= x < n -> zlen (g x) = m) -> 0 <= i < n -> 0 <= k < m ->
  nth_error (flat_map g (zrange 0 n)) (Z.to_nat (i * m + k)) = nth_error (g i) (Z.to_nat k).
Proof.
  intros A g m n i k Pm Hg Hi Hk.
  assert (G : forall q a, (forall x, a <= x < n -> zlen (g x) = m) -> q = Z.to_nat (i - a) -> a <= i ->
    nth_error (flat_map g (zrange a n)) (Z.to_nat ((i - a) * m + k)) = nth_error (g i) (Z.to_nat k)).
  { induction q as [|q IH]; intros a Ha Eq La.
    - replace a with i by lia. rewrite zrange_cons by lia. cbn [flat_map]. rewrite Z.sub_diag, Z.mul_0_l, Z.add_0_l. rewrite nth_error_app1; auto.
      assert (Q := Ha i ltac:(lia)). unfold zlen in Q. lia.
    - rewrite zrange_cons by lia. cbn [flat_map]. assert (Q := Ha a ltac:(lia)). rewrite nth_error_app2 by (unfold zlen in Q; nia).
      rewrite <- (IH (a + 1)); [|intros x Hx; apply Ha; lia|lia|lia]. f_equal. unfold zlen in Q. nia. }
  specialize (G (Z.to_nat (i - 0)) 0 Hg eq_refl (proj1 Hi)). rewrite Z.sub_0_r in G. exact G.
Qed.
Lemma read_position : forall A sizes (e : list A) f idx, Forall (fun n => 0 <= n) sizes -> holds sizes e f -> within sizes idx ->
  read e (position sizes idx) = Some (f idx).
Proof.
  intros A sizes e f idx P -> H. unfold read. assert (R := position_range _ _ H). destruct (Z.ltb_spec (position sizes idx) 0); [lia|].
  rewrite nth_error_map. enough (nth_error (indices sizes) (Z.to_nat (position sizes idx)) = Some idx) as -> by reflexivity. clear R H0.
  induction H as [|n i r j Hi H IH]; [reflexivity|]. inversion P as [|? ? Pn Pr]. subst. cbn [indices position].
  rewrite (nth_flat_map _ _ (product r)).
  - rewrite nth_error_map, IH by auto. reflexivity.
  - now apply product_nonneg.
  - intros x _. rewrite zlen_map. now apply zlen_indices.
  - auto.
  - now apply position_range.
Qed.
