(** Proofs about DecTopkModel.v. *)
From Coq Require Import ZArith Bool PeanoNat Permutation Sorted Lia List.
From Verif Require Import Prelude DecTopkModel.
Import ListNotations.
Open Scope Z_scope.

(** The order of a stable sort: by the elements, and by the indices for elements that are equal. *)
Definition before (desc : bool) (p q : Z * nat) : Prop :=
  (if desc then fst p > fst q else fst p < fst q) \/ (fst p = fst q /\ (snd p < snd q)%nat).

Lemma insert_perm : forall desc p l, Permutation (p :: l) (sort_insert desc p l).
Proof.
  intros desc p l. induction l as [|q l IH]; cbn [sort_insert]; [reflexivity|]. destruct (after desc (fst q) (fst p)); [|reflexivity].
  etransitivity; [apply perm_swap|]. now constructor.
Qed.
Lemma sort_pairs_perm : forall desc l, Permutation l (fold_right (sort_insert desc) [] l).
Proof. intros desc l. induction l as [|p l IH]; cbn [fold_right]; [constructor|]. etransitivity; [constructor; exact IH|]. apply insert_perm. Qed.
Lemma before_trans : forall desc p q r, before desc p q -> before desc q r -> before desc p r.
Proof. intros [] p q r; unfold before; lia. Qed.
Lemma insert_sorted : forall desc p l, StronglySorted (before desc) l -> Forall (fun q => (snd p < snd q)%nat) l ->
  StronglySorted (before desc) (sort_insert desc p l).
Proof.
  intros desc p l S0. induction S0 as [|q l S0 IH F]; intros G; cbn [sort_insert]; [repeat constructor|]. inversion G as [|? ? Gq G']; subst.
  destruct (after desc (fst q) (fst p)) eqn:A.
  - constructor; [auto|]. apply (Permutation_Forall (insert_perm desc p l)). constructor; [|exact F].
    unfold after in A. unfold before. destruct desc; apply Z.ltb_lt in A; left; lia.
  - assert (H : before desc p q).
    { unfold after in A. unfold before. destruct desc; apply Z.ltb_ge in A; lia. }
    constructor; [now constructor|]. constructor; [exact H|]. eapply Forall_impl; [|exact F]. intros r Hr. eapply before_trans; eauto.
Qed.
Lemma combine_seq_snd : forall (l : list Z) k, Forall (fun q => (k <= snd q)%nat) (combine l (seq k (length l))).
Proof.
  induction l as [|x l IH]; intros k; cbn [length seq combine]; constructor; [cbn; lia|]. eapply Forall_impl; [|apply (IH (S k))]. cbn. intros q H. lia.
Qed.
Lemma sort_pairs_sorted : forall desc l k, StronglySorted (before desc) (fold_right (sort_insert desc) [] (combine l (seq k (length l)))).
Proof.
  intros desc l. induction l as [|x l IH]; intros k; cbn [length seq combine fold_right]; [constructor|]. apply insert_sorted; [apply IH|].
  apply (Permutation_Forall (sort_pairs_perm desc _)). eapply Forall_impl; [|apply (combine_seq_snd l (S k))]. cbn. intros q H. lia.
Qed.
Lemma in_combine_seq : forall (l : list Z) k v i, In (v, i) (combine l (seq k (length l))) <-> (k <= i)%nat /\ nth_error l (i - k) = Some v.
Proof.
  induction l as [|x l IH]; intros k v i; cbn [length seq combine].
  - split; [intros []|]. intros (_ & H). destruct (i - k)%nat; discriminate.
  - cbn [In]. rewrite IH. split.
    + intros [H|(L & H)]; [injection H as -> ->; rewrite Nat.sub_diag; split; [lia|reflexivity]|].
      split; [lia|]. replace (i - k)%nat with (S (i - S k)) by lia. exact H.
    + intros (L & H). destruct (Nat.eq_dec i k) as [->|N]; [rewrite Nat.sub_diag in H; cbn in H; left; congruence|].
      right. split; [lia|]. replace (i - k)%nat with (S (i - S k)) in H by lia. exact H.
Qed.
Lemma in_sort : forall desc l v i, In (v, i) (aten_sort desc l) <-> nth_error l i = Some v.
Proof.
  intros desc l v i. unfold aten_sort. split; intros H.
  - apply (Permutation_in _ (Permutation_sym (sort_pairs_perm desc _))) in H. apply in_combine_seq in H. rewrite Nat.sub_0_r in H. tauto.
  - apply (Permutation_in _ (sort_pairs_perm desc _)). apply in_combine_seq. rewrite Nat.sub_0_r. split; [lia|exact H].
Qed.
Lemma sort_is_sorted : forall desc l, StronglySorted (before desc) (aten_sort desc l).
Proof. intros. apply sort_pairs_sorted. Qed.
Lemma sort_length : forall desc l, length (aten_sort desc l) = length l.
Proof. intros. unfold aten_sort. rewrite <- (Permutation_length (sort_pairs_perm desc _)), combine_length, seq_length. lia. Qed.
(** A list is determined by its elements and this order. *)
Lemma before_irrefl : forall desc p, ~ before desc p p.
Proof. intros [] p; unfold before; lia. Qed.
Lemma sorted_unique : forall desc a b, StronglySorted (before desc) a -> StronglySorted (before desc) b -> (forall p, In p a <-> In p b) -> a = b.
Proof.
  intros desc a. induction a as [|p a IH]; intros [|q b] Sa Sb H; [reflexivity|exfalso; apply (proj2 (H q)); now left|exfalso; apply (proj1 (H p)); now left|].
  inversion Sa as [|? ? Sa' Fa]; subst. inversion Sb as [|? ? Sb' Fb]; subst. rewrite Forall_forall in Fa, Fb.
  assert (E : p = q).
  { destruct (proj1 (H p) (or_introl eq_refl)) as [|P]; [auto|]. destruct (proj2 (H q) (or_introl eq_refl)) as [|Q]; [auto|].
    exfalso. apply (before_irrefl desc p). apply before_trans with q; auto. }
  subst q. f_equal. apply IH; auto. intros r. split; intros R.
  - destruct (proj1 (H r) (or_intror R)) as [<-|]; [|assumption]. exfalso. apply (before_irrefl desc p). auto.
  - destruct (proj2 (H r) (or_intror R)) as [<-|]; [|assumption]. exfalso. apply (before_irrefl desc p). auto.
Qed.
Lemma sorted_firstn : forall desc n l, StronglySorted (before desc) l -> StronglySorted (before desc) (firstn n l) /\
  (forall p q, In p (firstn n l) -> In q (skipn n l) -> before desc p q).
Proof.
  intros desc n. induction n as [|n IH]; intros l S0; cbn [firstn skipn]; [split; [constructor|intros p q []]|].
  destruct S0 as [|x l S0 F]; [split; [constructor|intros p q []]|]. destruct (IH l S0) as (A & C). rewrite Forall_forall in F. split.
  - constructor; [exact A|]. apply Forall_forall. intros y Hy. apply F. rewrite <- (firstn_skipn n l). apply in_or_app. now left.
  - intros p q [<-|P] Q; [|now apply C]. apply F. rewrite <- (firstn_skipn n l). apply in_or_app. now right.
Qed.
Lemma slice_to_map : forall (A C : Type) (f : A -> C) k l, slice_to k (map f l) = map f (slice_to k l).
Proof. intros A C f k l. unfold slice_to. rewrite map_length. apply firstn_map. Qed.
Lemma slice_to_len : forall (A : Type) k (l : list A), length (slice_to k l) =
  Z.to_nat (Z.min (Z.of_nat (length l)) (Z.max 0 (if k <? 0 then k + Z.of_nat (length l) else k))).
Proof. intros A k l. unfold slice_to. rewrite firstn_length. lia. Qed.

(** [ps] are the first elements of [l] in that order: they are elements of [l], in order, and before all others. *)
Definition is_topk (desc : bool) (l : list Z) (ps : list (Z * nat)) : Prop :=
  StronglySorted (before desc) ps /\
  (forall v i, In (v, i) ps -> nth_error l i = Some v) /\
  (forall p v i, In p ps -> nth_error l i = Some v -> In (v, i) ps \/ before desc p (v, i)).
Lemma slice_topk : forall desc k l, is_topk desc l (slice_to k (aten_sort desc l)).
Proof.
  intros desc k l. unfold slice_to. set (n := Z.to_nat _). destruct (sorted_firstn desc n _ (sort_is_sorted desc l)) as (A & C).
  split; [exact A|]. split.
  - intros v i H. apply (in_sort desc). rewrite <- (firstn_skipn n (aten_sort desc l)). apply in_or_app. now left.
  - intros p v i P H. apply (in_sort desc) in H. rewrite <- (firstn_skipn n (aten_sort desc l)) in H. apply in_app_or in H. destruct H as [H|H]; [now left|right; auto].
Qed.
Lemma sorted_nodup : forall desc l, StronglySorted (before desc) l -> NoDup l.
Proof.
  intros desc l S0. induction S0 as [|p l S0 IH F]; constructor; auto. intros H. rewrite Forall_forall in F. now apply (before_irrefl desc p), F.
Qed.
Lemma pair_dec : forall p q : Z * nat, {p = q} + {p <> q}.
Proof. decide equality; [apply Nat.eq_dec|apply Z.eq_dec]. Qed.
(** There is only one such list of each length. *)
Lemma topk_unique : forall desc l a b, is_topk desc l a -> is_topk desc l b -> length a = length b -> a = b.
Proof.
  intros desc l a b (Sa & Ma & Ta) (Sb & Mb & Tb) L.
  assert (X : incl a b \/ incl b a).
  { destruct (Forall_Exists_dec (fun p => In p b) (fun p => in_dec pair_dec p b) a) as [F|F].
    - left. intros p. apply (proj1 (Forall_forall _ _) F p).
    - right. apply Exists_exists in F. destruct F as ([v i] & P & NP). intros [w j] Q.
      destruct (Ta (v, i) w j P (Mb _ _ Q)) as [|Hb]; [assumption|]. exfalso.
      destruct (Tb (w, j) v i Q (Ma _ _ P)) as [|Hb']; [contradiction|]. apply (before_irrefl desc (v, i)). eapply before_trans; eauto. }
  apply (sorted_unique desc); auto. intros p. destruct X as [X|X].
  - split; [apply X|]. apply (NoDup_length_incl (sorted_nodup _ _ Sa)); [lia|exact X].
  - split; [|apply X]. apply (NoDup_length_incl (sorted_nodup _ _ Sb)); [lia|exact X].
Qed.
