(** C130: what the verifiers of operations with shapes accept. *)
From Coq Require Import Bool ZArith Lia List.
From Verif Require Import Prelude ShapeVerifyModel ShapeVerifySpec.
Import ListNotations.
Open Scope list_scope.
Open Scope Z_scope.

Lemma names_positive r d i : names r d i <-> i = to_positive_dim d r /\ is_valid_dim i r = true.
Proof. unfold names, to_positive_dim, is_valid_dim. rewrite andb_true_iff, Z.leb_le, Z.ltb_lt. destruct (Z.leb_spec 0 d); lia. Qed.
Lemma names_range r d : (exists i, names r d i) <-> (r <=? d) || (d <? - r) = false.
Proof. rewrite orb_false_iff, Z.leb_gt, Z.ltb_ge. unfold names. split; [intros (i & H); lia|]. intros H. exists (if d <? 0 then d + r else d). destruct (Z.ltb_spec d 0); lia. Qed.
Lemma dt_eqb_eq a b : dt_eqb a b = true <-> a = b.
Proof. destruct a, b; cbn; split; congruence. Qed.
Lemma dt_eqb_refl a : dt_eqb a a = true.
Proof. destruct a; reflexivity. Qed.
Lemma may_rank (l : list size) (s : list Z) : Forall2 may l s -> rank_of l = rank_of s.
Proof. intros F. unfold rank_of. f_equal. induction F; cbn; congruence. Qed.
Lemma may_at : forall (l : list size) (s : list Z) i n, Forall2 may l s -> nth_error s (Z.to_nat i) = Some n -> may (size_at l i) n.
Proof. intros l s i n F. unfold size_at. generalize (Z.to_nat i). induction F as [|x y l s M F IH]; intros [|k] H; cbn in H; try discriminate; cbn [nth]; [injection H as <-; exact M|exact (IH k H)]. Qed.
Lemma known_at s i : 0 <= i < rank_of s -> exists n, nth_error s (Z.to_nat i) = Some n /\ size_at (map Some s) i = Some n.
Proof. unfold rank_of, size_at. intros L. destruct (nth_error s (Z.to_nat i)) as [n|] eqn:N; [|apply nth_error_None in N; lia]. exists n. split; [reflexivity|]. apply nth_error_nth. rewrite nth_error_map, N. reflexivity. Qed.
Lemma known_rank (s : list Z) : rank_of (map Some s) = rank_of s.
Proof. unfold rank_of. rewrite map_length. reflexivity. Qed.
Lemma may_known : forall s : list Z, Forall2 may (map Some s) s.
Proof. induction s; constructor; [reflexivity|assumption]. Qed.

(** ** permute *)
(** the constants of the permutation name dimensions, each another one, and sizes that are known agree *)
Definition permutes (inp : list size) (seen : list Z) (perm : list int) (out : list size) : Prop :=
  forall j f, nth_error perm j = Some (Some f) -> exists i, names (rank_of inp) f i /\ ~ In i seen /\
    (forall j' f', j' <> j -> nth_error perm j' = Some (Some f') -> ~ names (rank_of inp) f' i) /\
    forall a b, size_at inp i = Some a -> nth_error out j = Some (Some b) -> a = b.
Lemma names_one r d i i' : names r d i -> names r d i' -> i = i'.
Proof. unfold names. lia. Qed.
Lemma permute_loop_exact inp : forall perm out seen, List.length perm = List.length out -> (permute_loop inp seen perm out = true <-> permutes inp seen perm out).
Proof.
  induction perm as [|p perm IH]; intros [|o out] seen L; try discriminate; [cbn; split; [intros _ [|j] f H; discriminate|reflexivity]|]. injection L as L. cbn [permute_loop]. destruct p as [from|].
  - cbv zeta. rewrite !andb_true_iff, IH by exact L. set (r := rank_of inp). set (i := to_positive_dim from r). split.
    + intros (((V & N) & A) & P) [|j] f H; cbn in H.
      * injection H as <-. exists i. assert (Ni : names r from i) by (apply names_positive; auto). split; [exact Ni|]. split; [intros Z; rewrite negb_true_iff in N; rewrite <- not_true_iff_false in N; apply N; apply existsb_exists; exists i; split; [exact Z|apply Z.eqb_refl]|]. split.
        -- intros [|j'] f' D H Nf; [congruence|]. cbn in H. destruct (P j' f' H) as (i' & N1 & N2 & _). apply N2. left. exact (names_one _ _ _ _ Nf N1).
        -- intros a b Ea Eb. cbn in Eb. injection Eb as ->. rewrite Ea in A. apply Z.eqb_eq. exact A.
      * destruct (P j f H) as (i' & N1 & N2 & N3 & N4). exists i'. split; [exact N1|]. split; [intros Z; apply N2; right; exact Z|]. split; [|exact N4]. intros [|j'] f' D H' Nf; cbn in H'; [injection H' as <-; apply N2; left; apply names_positive in Nf; symmetry; exact (proj1 Nf)|]. exact (N3 j' f' ltac:(congruence) H' Nf).
    + intros P. destruct (P O from eq_refl) as (i0 & N1 & N2 & N3 & N4). pose proof N1 as N1'. apply names_positive in N1'. destruct N1' as [-> V]. fold r i in N1, N2, N3, N4, V. repeat split.
      * exact V.
      * rewrite negb_true_iff, <- not_true_iff_false. intros Z. apply existsb_exists in Z. destruct Z as (x & Ix & Ex). apply Z.eqb_eq in Ex. subst x. exact (N2 Ix).
      * destruct (size_at inp i) as [a|] eqn:Sa; [|reflexivity]. destruct o as [b|]; [|reflexivity]. apply Z.eqb_eq. exact (N4 a b eq_refl eq_refl).
      * intros j f H. destruct (P (Datatypes.S j) f H) as (i' & M1 & M2 & M3 & M4). exists i'. split; [exact M1|]. split; [intros [<-|Z]; [exact (M3 O from ltac:(discriminate) eq_refl N1)|exact (M2 Z)]|]. split; [intros j' f' D H'; exact (M3 (Datatypes.S j') f' ltac:(congruence) H')|exact M4].
  - rewrite IH by exact L. split; intros P.
    + intros [|j] f H; cbn in H; [discriminate|]. destruct (P j f H) as (i' & M1 & M2 & M3 & M4). exists i'. split; [exact M1|]. split; [exact M2|]. split; [intros [|j'] f' D H'; [discriminate|exact (M3 j' f' ltac:(congruence) H')]|exact M4].
    + intros j f H. destruct (P (Datatypes.S j) f H) as (i' & M1 & M2 & M3 & M4). exists i'. split; [exact M1|]. split; [exact M2|]. split; [intros j' f' D H'; exact (M3 (Datatypes.S j') f' ltac:(congruence) H')|exact M4].
Qed.
Theorem C130_permute dims out inp : verify_permute dims out inp = true <-> forall perm o i, dims = Some perm -> sizes out = Some o -> sizes inp = Some i -> List.length o = List.length i /\ List.length perm = List.length i /\ permutes i [] perm o.
Proof.
  unfold verify_permute. destruct dims as [perm|]; [|split; [discriminate|reflexivity]]. destruct (sizes out) as [o|]; [|split; [discriminate|reflexivity]]. destruct (sizes inp) as [i|]; [|split; [discriminate|reflexivity]]. unfold rank_of at 1 2 3 4. destruct (Z.eqb_spec (Z.of_nat (List.length o)) (Z.of_nat (List.length i))) as [E1|E1]; [destruct (Z.eqb_spec (Z.of_nat (List.length o)) (Z.of_nat (List.length perm))) as [E2|E2]|].
  - rewrite permute_loop_exact by lia. split; [intros P ? ? ? [= <-] [= <-] [= <-]; repeat split; [lia|lia|exact P]|intros H; exact (proj2 (proj2 (H _ _ _ eq_refl eq_refl eq_refl)))].
  - split; [discriminate|]. intros H. destruct (H _ _ _ eq_refl eq_refl eq_refl) as (H1 & H2 & _). lia.
  - split; [discriminate|]. intros H. destruct (H _ _ _ eq_refl eq_refl eq_refl) as (H1 & H2 & _). lia.
Qed.
Lemma Forall2_nth {A B} (R : A -> B -> Prop) : forall l l', Forall2 R l l' -> forall j x, nth_error l j = Some x -> exists y, nth_error l' j = Some y /\ R x y.
Proof. intros l l' F. induction F as [|x y l l' H F IH]; intros [|j] z Q; cbn in Q; try discriminate; [injection Q as <-; exists y; split; [reflexivity|exact H]|exact (IH j z Q)]. Qed.
(** no program that can permute is refused *)
Theorem C130_permute_sound dims out inp perm s o : may_shape dims perm -> may_shape (sizes inp) s -> may_shape (sizes out) o -> can_permute perm s o -> verify_permute dims out inp = true.
Proof.
  intros Md Mi Mo (idx & F1 & ND & Ln & F2). apply C130_permute. intros p o' i -> So Si. rewrite So in Mo. rewrite Si in Mi. cbn [may_shape] in *. pose proof (Forall2_len _ _ _ _ _ Md) as L1. pose proof (Forall2_len _ _ _ _ _ Mi) as L2. pose proof (Forall2_len _ _ _ _ _ Mo) as L3. pose proof (Forall2_len _ _ _ _ _ F1) as L4. pose proof (Forall2_len _ _ _ _ _ F2) as L5.
  unfold size, int in *. split; [congruence|]. split; [congruence|]. rewrite <- (may_rank _ _ Mi) in F1. intros j f Hj. destruct (Forall2_nth _ _ _ Md j _ Hj) as (f0 & Hf & Mf). cbn in Mf. subst f0. destruct (Forall2_nth _ _ _ F1 j _ Hf) as (k & Hk & Nk). exists k. split; [exact Nk|]. split; [intros []|]. split.
  - intros j' f' D Hj' Nf. destruct (Forall2_nth _ _ _ Md j' _ Hj') as (f0 & Hf' & Mf). cbn in Mf. subst f0. destruct (Forall2_nth _ _ _ F1 j' _ Hf') as (k' & Hk' & Nk'). assert (k' = k) by exact (names_one _ _ _ _ Nk' Nf). subst k'. apply D. apply (proj1 (NoDup_nth_error idx) ND); [apply nth_error_Some; congruence|congruence].
  - intros a b Sa Sb. destruct (Forall2_nth _ _ _ F2 j _ Hk) as (n & Hn & Hs). destruct (Forall2_nth _ _ _ Mo j _ Sb) as (b' & Hb & Mb). cbn in Mb. pose proof (may_at _ _ _ _ Mi Hs) as Ma. rewrite Sa in Ma. cbn in Ma. congruence.
Qed.
(** and where all is known nothing else is accepted *)
Theorem C130_permute_complete perm d d' s o : verify_permute (Some (map Some perm)) (known d o) (known d' s) = true -> can_permute perm s o.
Proof.
  intros V. pose proof (proj1 (C130_permute _ _ _) V _ _ _ eq_refl eq_refl eq_refl) as (L1 & L2 & P). rewrite !map_length in L1, L2. set (r := rank_of s). assert (G : forall j f, nth_error perm j = Some f -> names r f (to_positive_dim f r) /\ forall n, nth_error s (Z.to_nat (to_positive_dim f r)) = Some n -> nth_error o j = Some n).
  { intros j f Hj. destruct (P j f) as (i & N1 & _ & _ & N4); [rewrite nth_error_map, Hj; reflexivity|]. rewrite known_rank in N1. fold r in N1. pose proof N1 as N1'. apply names_positive in N1'. destruct N1' as [-> _]. split; [exact N1|]. intros n Hn. destruct (known_at s (to_positive_dim f r) (proj1 N1)) as (n' & Hn' & Sa). assert (n' = n) by congruence. subst n'. assert (Lj : (j < List.length o)%nat) by (assert (Hl : (j < List.length perm)%nat) by (apply nth_error_Some; congruence); lia). destruct (nth_error o j) as [b|] eqn:Ob; [|apply nth_error_None in Ob; lia]. f_equal. symmetry. apply (N4 n b); [exact Sa|rewrite nth_error_map, Ob; reflexivity]. }
  exists (map (fun f => to_positive_dim f r) perm). split; [|split; [|split]].
  - assert (G' : forall f, In f perm -> names r f (to_positive_dim f r)) by (intros f If; apply In_nth_error in If; destruct If as (j & Hj); exact (proj1 (G j f Hj))). clear -G'. induction perm as [|f perm IH]; cbn [map]; constructor; [apply G'; left; reflexivity|apply IH; intros g Ig; apply G'; right; exact Ig].
  - apply NoDup_nth_error. intros j j' Lj E. rewrite map_length in Lj. rewrite !nth_error_map in E. destruct (nth_error perm j) as [f|] eqn:Hj; [|apply nth_error_None in Hj; lia]. destruct (nth_error perm j') as [f'|] eqn:Hj'; [|discriminate]. injection E as E. destruct (Nat.eq_dec j' j) as [->|D]; [reflexivity|]. exfalso. destruct (P j f) as (i & N1 & _ & N3 & _); [rewrite nth_error_map, Hj; reflexivity|]. rewrite known_rank in N1, N3. fold r in N1, N3. apply (N3 j' f' D); [rewrite nth_error_map, Hj'; reflexivity|]. rewrite (names_one _ _ _ _ N1 (proj1 (G j f Hj))), E. exact (proj1 (G j' f' Hj')).
  - rewrite map_length. exact L2.
  - assert (Lp : List.length perm = List.length o) by congruence. clear -G Lp. assert (G' : forall j f, nth_error perm j = Some f -> exists n, nth_error s (Z.to_nat (to_positive_dim f r)) = Some n /\ nth_error o j = Some n) by (intros j f Hj; destruct (G j f Hj) as [N1 G1]; destruct (known_at s _ (proj1 N1)) as (n & Hn & _); exists n; split; [exact Hn|exact (G1 n Hn)]). clear G. revert o Lp G'. induction perm as [|f perm IH]; intros [|b o] Lp G'; try discriminate; cbn [map]; constructor; [destruct (G' O f eq_refl) as (n & H1 & H2); cbn in H2; congruence|]. apply IH; [injection Lp as Lp; exact Lp|]. intros j g Hg. exact (G' (Datatypes.S j) g Hg).
Qed.

(** ** linalg.cross *)
Theorem C130_cross self other dim : verify_cross self other dim = true <-> forall ds d_o s o, dtype self = Some ds -> dtype other = Some d_o -> sizes self = Some s -> sizes other = Some o ->
  ds = d_o /\ ds <> DBool /\ List.length s = List.length o /\ forall d, dim = Some d -> Forall2 (fun a b => a = b \/ a = Some 1 \/ b = Some 1) s o /\ exists i, names (rank_of s) d i /\ (forall n, size_at s i = Some n -> n = 3) /\ (forall n, size_at o i = Some n -> n = 3).
Proof.
  unfold verify_cross. destruct (dtype self) as [ds|]; [|split; [discriminate|reflexivity]]. destruct (dtype other) as [d_o|]; [|split; [discriminate|reflexivity]]. destruct (sizes self) as [s|]; [|split; [discriminate|reflexivity]]. destruct (sizes other) as [o|]; [|split; [discriminate|reflexivity]].
  assert (Cs : forall a b, List.length a = List.length b -> (cross_sizes a b = true <-> Forall2 (fun a b => a = b \/ a = Some 1 \/ b = Some 1) a b)).
  { assert (One : forall x, is_one x = true <-> x = Some 1) by (intros [x|]; cbn; [rewrite Z.eqb_eq|]; split; congruence). assert (Se : forall x y, size_eqb x y = true <-> x = y) by (intros [x|] [y|]; cbn; try rewrite Z.eqb_eq; split; congruence).
    induction a as [|x a IH]; intros [|y b] L; try discriminate; [split; [constructor|reflexivity]|]. cbn [cross_sizes]. rewrite andb_true_iff, !orb_true_iff, Se, !One, (IH b) by (injection L as L; exact L). split; [intros [[[H|H]|H] F]; constructor; auto|intros F; inversion F; subst; tauto]. }
  assert (Th : forall x, three_or_unknown x = true <-> forall n, x = Some n -> n = 3) by (intros [x|]; cbn; [rewrite Z.eqb_eq; split; [intros -> n [= <-]; reflexivity|intros H; exact (H x eq_refl)]|split; [discriminate|reflexivity]]).
  destruct (dt_eqb ds d_o) eqn:De; cbn [negb]; [|split; [discriminate|intros H; destruct (H _ _ _ _ eq_refl eq_refl eq_refl eq_refl) as (-> & _); rewrite dt_eqb_refl in De; discriminate]]. apply dt_eqb_eq in De. subst d_o. rewrite orb_diag. destruct (dt_eqb ds DBool) eqn:Db; [apply dt_eqb_eq in Db; split; [discriminate|intros H; destruct (H _ _ _ _ eq_refl eq_refl eq_refl eq_refl) as (_ & N & _); contradiction]|]. assert (Nb : ds <> DBool) by (intros ->; discriminate).
  unfold rank_of at 1 2. destruct (Z.eqb_spec (Z.of_nat (List.length s)) (Z.of_nat (List.length o))) as [L|L]; cbn [negb]; [|split; [discriminate|intros H; destruct (H _ _ _ _ eq_refl eq_refl eq_refl eq_refl) as (_ & _ & L' & _); lia]]. assert (L' : List.length s = List.length o) by lia.
  destruct dim as [d|]; [|split; [intros _ ? ? ? ? [= <-] [= <-] [= <-] [= <-]; repeat split; try assumption; discriminate|reflexivity]]. destruct ((rank_of s <=? d) || (d <? - rank_of s)) eqn:Rg.
  - split; [discriminate|]. intros H. destruct (H _ _ _ _ eq_refl eq_refl eq_refl eq_refl) as (_ & _ & _ & H4). destruct (H4 d eq_refl) as (_ & i & Ni & _). pose proof (proj1 (names_range _ _) (ex_intro _ i Ni)). congruence.
  - set (i := if d <? 0 then d + rank_of s else d). assert (Ni : names (rank_of s) d i) by (rewrite orb_false_iff, Z.leb_gt, Z.ltb_ge in Rg; unfold names, i; destruct (Z.ltb_spec d 0); lia). rewrite !andb_true_iff, !Th, Cs by exact L'. split.
    + intros ((T1 & T2) & F) ? ? ? ? [= <-] [= <-] [= <-] [= <-]. split; [reflexivity|]. split; [exact Nb|]. split; [exact L'|]. intros d' [= <-]. split; [exact F|]. exists i. auto.
    + intros H. destruct (H _ _ _ _ eq_refl eq_refl eq_refl eq_refl) as (_ & _ & _ & H4). destruct (H4 d eq_refl) as (F & i' & Ni' & T1 & T2). rewrite (names_one _ _ _ _ Ni' Ni) in T1, T2. auto.
Qed.
Lemma cross_known : forall (l l' : list (option Z)) (s o : list Z), Forall2 may l s -> Forall2 may l' o -> Forall2 (fun a b => a = b \/ a = 1 \/ b = 1) s o -> Forall2 (fun a b => (a = None <-> b = None) \/ a = Some 1 \/ b = Some 1) l l' -> Forall2 (fun a b => a = b \/ a = Some 1 \/ b = Some 1) l l'.
Proof.
  intros l l' s o F1. revert l' o. induction F1 as [|x a l s M1 F1 IH]; intros l' o F2 F K; inversion K as [|? x' ? l2 K1 K2]; subst; [constructor|]. inversion F2 as [|? b ? o2 M2 F2']; subst. inversion F as [|? ? ? ? R1 R2]; subst. constructor; [|exact (IH l2 o2 F2' R2 K2)].
  destruct x as [x|], x' as [x'|]; cbn in M1, M2; subst; [destruct R1 as [R1|[R1|R1]]; subst; auto| | |left; reflexivity]; destruct K1 as [K1|[K1|K1]]; auto; [pose proof (proj2 K1 eq_refl)|pose proof (proj1 K1 eq_refl)]; discriminate.
Qed.
(** a program that can take the product is accepted if it knows sizes of both tensors or of neither, or knows that one is 1 *)
Theorem C130_cross_sound_partial self other dim ds d_o s o d : may_tensor self ds s -> may_tensor other d_o o -> may dim d -> can_cross ds d_o s o d ->
  (forall l l', sizes self = Some l -> sizes other = Some l' -> Forall2 (fun a b => (a = None <-> b = None) \/ a = Some 1 \/ b = Some 1) l l') -> verify_cross self other dim = true.
Proof.
  intros [Md1 Ms1] [Md2 Ms2] Mdim (E & Nb & F & i & Ni & S1 & S2) K. apply C130_cross. intros ds' do' l l' E1 E2 E3 E4. rewrite E1 in Md1. rewrite E2 in Md2. rewrite E3 in Ms1. rewrite E4 in Ms2. cbn in Md1, Md2, Ms1, Ms2. subst ds' do'. pose proof (Forall2_len _ _ _ _ _ Ms1) as L1. pose proof (Forall2_len _ _ _ _ _ Ms2) as L2. pose proof (Forall2_len _ _ _ _ _ F) as L3.
  unfold size, int in *. split; [exact E|]. split; [exact Nb|]. split; [congruence|]. intros d' ->. cbn in Mdim. subst d'. specialize (K l l' E3 E4). split.
  - exact (cross_known l l' s o Ms1 Ms2 F K).
  - exists i. replace (rank_of l) with (rank_of s) by (symmetry; exact (may_rank l s Ms1)). split; [exact Ni|]. split; intros n Hn; [pose proof (may_at _ _ _ _ Ms1 S1) as M|pose proof (may_at _ _ _ _ Ms2 S2) as M]; rewrite Hn in M; cbn in M; congruence.
Qed.
(** but a size known of one tensor only is taken for a difference *)
Theorem C130_cross_sound_refuted : ~ forall self other dim ds d_o s o d, may_tensor self ds s -> may_tensor other d_o o -> may dim d -> can_cross ds d_o s o d -> verify_cross self other dim = true.
Proof.
  intros H. specialize (H {| dtype := Some DF32; sizes := Some [None; Some 3] |} (known DF32 [4; 3]) (Some 1) DF32 DF32 [4; 3] [4; 3] 1). assert (Z : verify_cross {| dtype := Some DF32; sizes := Some [None; Some 3] |} (known DF32 [4; 3]) (Some 1) = true); [|vm_compute in Z; discriminate]. apply H.
  - split; [reflexivity|]. repeat constructor.
  - split; [reflexivity|]. repeat constructor.
  - reflexivity.
  - split; [reflexivity|]. split; [discriminate|]. split; [repeat constructor|]. exists 1. split; [unfold names, rank_of; cbn; lia|]. split; reflexivity.
Qed.
Theorem C130_cross_complete ds d_o s o d : verify_cross (known ds s) (known d_o o) (Some d) = true -> can_cross ds d_o s o d.
Proof.
  intros V. destruct (proj1 (C130_cross _ _ _) V _ _ _ _ eq_refl eq_refl eq_refl eq_refl) as (E & Nb & L & H). destruct (H d eq_refl) as (F & i & Ni & T1 & T2). rewrite known_rank in Ni. rewrite !map_length in L. split; [exact E|]. split; [exact Nb|]. split.
  - clear -F. revert o F. induction s as [|x s IH]; intros [|y o] F; inversion F; subst; constructor; [destruct H2 as [H|[H|H]]; injection H as ->; auto|apply IH; assumption].
  - exists i. split; [exact Ni|]. destruct (known_at s i (proj1 Ni)) as (n & Hn & Sn). assert (Ro : rank_of s = rank_of o) by (unfold rank_of; congruence). assert (Li : 0 <= i < rank_of o) by (rewrite <- Ro; exact (proj1 Ni)). destruct (known_at o i Li) as (m & Hm & Sm). rewrite (T1 n Sn) in Hn. rewrite (T2 m Sm) in Hm. auto.
Qed.

(** ** kthvalue *)
Theorem C130_kthvalue self k dim : verify_kthvalue self k dim = true <-> forall ds s, dtype self = Some ds -> sizes self = Some s -> ds <> DBool /\ forall d, dim = Some d -> exists i, names (rank_of s) d i /\ forall k0 n, k = Some k0 -> size_at s i = Some n -> 1 <= k0 <= n.
Proof.
  unfold verify_kthvalue. destruct (dtype self) as [ds|]; [|split; [discriminate|reflexivity]]. destruct (sizes self) as [s|]; [|split; [discriminate|reflexivity]]. destruct (dt_eqb ds DBool) eqn:Db; [apply dt_eqb_eq in Db; split; [discriminate|intros H; destruct (H _ _ eq_refl eq_refl); contradiction]|]. assert (Nb : ds <> DBool) by (intros ->; discriminate).
  destruct dim as [d|]; [|split; [intros _ ? ? [= <-] [= <-]; split; [exact Nb|discriminate]|reflexivity]]. cbv zeta. destruct (is_valid_dim (to_positive_dim d (rank_of s)) (rank_of s)) eqn:V.
  - assert (Ni : names (rank_of s) d (to_positive_dim d (rank_of s))) by (apply names_positive; auto). split.
    + intros H ? ? [= <-] [= <-]. split; [exact Nb|]. intros d' [= <-]. exists (to_positive_dim d (rank_of s)). split; [exact Ni|]. intros k0 n -> Sn. rewrite Sn in H. apply andb_true_iff in H. rewrite !Z.leb_le in H. exact H.
    + intros H. destruct (H _ _ eq_refl eq_refl) as [_ H1]. destruct (H1 d eq_refl) as (i & Ni' & H2). rewrite (names_one _ _ _ _ Ni' Ni) in H2. destruct k as [k0|]; [|reflexivity]. destruct (size_at s (to_positive_dim d (rank_of s))) as [n|]; [|reflexivity]. apply andb_true_iff. rewrite !Z.leb_le. exact (H2 k0 n eq_refl eq_refl).
  - split; [discriminate|]. intros H. destruct (H _ _ eq_refl eq_refl) as [_ H1]. destruct (H1 d eq_refl) as (i & Ni & _). apply names_positive in Ni. destruct Ni as [-> V']. congruence.
Qed.
Theorem C130_kthvalue_sound self k dim ds s k0 d : may_tensor self ds s -> may k k0 -> may dim d -> can_kthvalue ds s k0 d -> verify_kthvalue self k dim = true.
Proof.
  intros [Md Ms] Mk Mdim (Nb & i & n & Ni & Sn & Kn). apply C130_kthvalue. intros ds' l E1 E2. rewrite E1 in Md. rewrite E2 in Ms. cbn in Md, Ms. subst ds'. split; [exact Nb|]. intros d' ->. cbn in Mdim. subst d'. exists i. rewrite (may_rank _ _ Ms). split; [exact Ni|]. intros k1 n' -> Sn'. cbn in Mk. subst k1. pose proof (may_at _ _ _ _ Ms Sn) as M. rewrite Sn' in M. cbn in M. subst n'. exact Kn.
Qed.
Theorem C130_kthvalue_complete ds s k d : verify_kthvalue (known ds s) (Some k) (Some d) = true -> can_kthvalue ds s k d.
Proof.
  intros V. destruct (proj1 (C130_kthvalue _ _ _) V _ _ eq_refl eq_refl) as (Nb & H). destruct (H d eq_refl) as (i & Ni & Hk). rewrite known_rank in Ni. destruct (known_at s i (proj1 Ni)) as (n & Hn & Sn). split; [exact Nb|]. exists i, n. split; [exact Ni|]. split; [exact Hn|exact (Hk k n eq_refl Sn)].
Qed.
(** a tensor of rank zero has no dimension for the verifier, though its dimension may be named 0 or -1 *)
Theorem C130_scalar_refuted : (~ forall self k d, sizes self = Some [] -> (exists i, names_scalar 0 d i) -> k = 1 -> dtype self <> Some DBool -> verify_kthvalue self (Some k) (Some d) = true) /\ (~ forall self d, sizes self = Some [] -> (exists i, names_scalar 0 d i) -> verify_count_nonzero self (DimInt (Some d)) = true).
Proof.
  assert (N : exists i, names_scalar 0 0 i) by (exists 0; unfold names_scalar, names; cbn; lia). split; intros H.
  - specialize (H (known DF32 []) 1 0 eq_refl N eq_refl ltac:(discriminate)). discriminate.
  - specialize (H (known DF32 []) 0 eq_refl N). discriminate.
Qed.

(** ** norm and renorm *)
Theorem C130_norm self : verify_norm self = true <-> forall d, dtype self = Some d -> In d [DF16; DF32; DF64; DComplex].
Proof. unfold verify_norm. destruct (dtype self) as [d|]; [|split; [discriminate|reflexivity]]. split; [intros H d' [= <-]; destruct d; try discriminate; cbn; auto|]. intros H. specialize (H d eq_refl). destruct d; try reflexivity; cbn in H; decompose [or] H; try discriminate; contradiction. Qed.
Theorem C130_norm_refuted : ~ forall self d, dtype self = Some d -> floating d -> verify_norm self = true.
Proof. intros H. specialize (H (known DBF16 []) DBF16 eq_refl (or_intror (or_introl eq_refl))). discriminate. Qed.
(** NaN is not greater than zero, and accepted *)
Definition is_nan (n : number) : Prop := n = NFloat None.
Lemma not_positive_spec n : not_positive n = false <-> positive n \/ is_nan n.
Proof. unfold is_nan. destruct n as [n|[[]|]]; cbn; [rewrite Z.leb_gt; split; [auto|intros [H|H]; [exact H|discriminate]]| | | |]; split; auto; try discriminate; intros [H|H]; discriminate. Qed.
Lemma negative_spec n : negative n = false <-> not_negative n \/ is_nan n.
Proof. unfold is_nan. destruct n as [n|[[]|]]; cbn; [rewrite Z.ltb_ge; split; [auto|intros [H|H]; [exact H|discriminate]]| | | |]; split; auto; try discriminate; intros [[H|H]|H]; discriminate. Qed.
Theorem C130_renorm self p m dim : verify_renorm self p m dim = true <-> forall ds s, dtype self = Some ds -> sizes self = Some s -> floating ds /\ 2 <= rank_of s /\
  forall p0, p = Some p0 -> (positive p0 \/ is_nan p0) /\ forall m0, m = Some m0 -> (not_negative m0 \/ is_nan m0) /\ forall d, dim = Some d -> exists i, names (rank_of s) d i.
Proof.
  unfold verify_renorm. destruct (dtype self) as [ds|]; [|split; [discriminate|reflexivity]]. destruct (sizes self) as [s|]; [|split; [discriminate|reflexivity]].
  set (rest := if rank_of s <=? 1 then false else match p with None => true | Some p => if not_positive p then false else match m with None => true | Some m => if negative m then false else match dim with None => true | Some d => negb ((rank_of s <=? d) || (d <? - rank_of s)) end end end).
  assert (R : rest = true <-> 2 <= rank_of s /\ forall p0, p = Some p0 -> (positive p0 \/ is_nan p0) /\ forall m0, m = Some m0 -> (not_negative m0 \/ is_nan m0) /\ forall d, dim = Some d -> exists i, names (rank_of s) d i).
  { unfold rest. destruct (Z.leb_spec (rank_of s) 1) as [Lr|Lr]; [split; [discriminate|intros (H & _); lia]|]. destruct p as [p0|]; [|split; [intros _; split; [lia|discriminate]|reflexivity]]. destruct (not_positive p0) eqn:Np.
    - split; [discriminate|]. intros (_ & H). destruct (H p0 eq_refl) as (H1 & _). apply not_positive_spec in H1. congruence.
    - apply not_positive_spec in Np. destruct m as [m0|]; [|split; [intros _; split; [lia|intros ? [= <-]; split; [exact Np|discriminate]]|reflexivity]]. destruct (negative m0) eqn:Ng.
      + split; [discriminate|]. intros (_ & H). destruct (H p0 eq_refl) as (_ & H1). destruct (H1 m0 eq_refl) as (H2 & _). apply negative_spec in H2. congruence.
      + apply negative_spec in Ng. destruct dim as [d|]; [|split; [intros _; split; [lia|intros ? [= <-]; split; [exact Np|intros ? [= <-]; split; [exact Ng|discriminate]]]|reflexivity]]. rewrite negb_true_iff, <- names_range. split; [intros H; split; [lia|intros ? [= <-]; split; [exact Np|intros ? [= <-]; split; [exact Ng|intros ? [= <-]; exact H]]]|]. intros (_ & H). destruct (H p0 eq_refl) as (_ & H1). destruct (H1 m0 eq_refl) as (_ & H2). exact (H2 d eq_refl). }
  assert (Fl : (match ds with DF16 | DBF16 | DF32 | DF64 | DComplex => rest | _ => false end = true) <-> floating ds /\ rest = true) by (unfold floating; destruct ds; cbn; split; try tauto; try discriminate; try (intros H; split; [tauto|exact H]); intros (H & _); decompose [or] H; discriminate || contradiction).
  etransitivity; [exact Fl|]. rewrite R. split; [intros H ? ? [= <-] [= <-]; tauto|intros H; specialize (H _ _ eq_refl eq_refl); tauto].
Qed.
Theorem C130_renorm_sound self p m dim ds s p0 m0 d : may_tensor self ds s -> may p p0 -> may m m0 -> may dim d -> can_renorm ds s p0 m0 d -> verify_renorm self p m dim = true.
Proof.
  intros [Md Ms] Mp Mm Mdim (Fl & Rk & Pp & Nm & Nd). apply C130_renorm. intros ds' l E1 E2. rewrite E1 in Md. rewrite E2 in Ms. cbn in Md, Ms. subst ds'. rewrite (may_rank _ _ Ms). split; [exact Fl|]. split; [exact Rk|]. intros p1 ->. cbn in Mp. subst p1. split; [left; exact Pp|]. intros m1 ->. cbn in Mm. subst m1. split; [left; exact Nm|]. intros d' ->. cbn in Mdim. subst d'. exact Nd.
Qed.
Theorem C130_renorm_complete_partial ds s p m d : p <> NFloat None -> m <> NFloat None -> verify_renorm (known ds s) (Some p) (Some m) (Some d) = true -> can_renorm ds s p m d.
Proof.
  intros N1 N2 V. destruct (proj1 (C130_renorm _ _ _ _) V _ _ eq_refl eq_refl) as (Fl & Rk & H). destruct (H p eq_refl) as ([H1|H1] & H2); [|contradiction]. destruct (H2 m eq_refl) as ([H3|H3] & H4); [|contradiction]. rewrite known_rank in *. split; [exact Fl|]. split; [exact Rk|]. split; [exact H1|]. split; [exact H3|exact (H4 d eq_refl)].
Qed.
Theorem C130_renorm_nan_refuted : ~ forall ds s p m d, verify_renorm (known ds s) (Some p) (Some m) (Some d) = true -> can_renorm ds s p m d.
Proof. intros H. destruct (H DF32 [2; 2] (NFloat None) (NInt 1) 0 eq_refl) as (_ & _ & P & _). discriminate. Qed.

(** ** rot90 *)
Theorem C130_rot90 self dims : verify_rot90 self dims = true <-> forall l, dims = Some l -> List.length l = 2%nat /\ forall s, sizes self = Some s -> 2 <= rank_of s /\ NoDup (map fst l).
Proof.
  unfold verify_rot90. destruct dims as [l|]; [|split; [discriminate|reflexivity]]. destruct l as [|a [|b [|c l]]]; try (split; [discriminate|intros H; destruct (H _ eq_refl); discriminate]). destruct (sizes self) as [s|]; [|split; [intros _ ? [= <-]; split; [reflexivity|discriminate]|reflexivity]].
  destruct (Z.ltb_spec (rank_of s) 2) as [L|L]; [split; [discriminate|intros H; destruct (H _ eq_refl) as (_ & H1); destruct (H1 s eq_refl); lia]|]. rewrite negb_true_iff, Nat.eqb_neq. split.
  - intros N ? [= <-]. split; [reflexivity|]. intros ? [= <-]. split; [lia|]. cbn. constructor; [intros [Z|[]]; congruence|]. constructor; [intros []|constructor].
  - intros H. destruct (H _ eq_refl) as (_ & H1). destruct (H1 s eq_refl) as (_ & ND). cbn in ND. inversion ND as [|? ? Nin _]; subst. intros Z. apply Nin. left. congruence.
Qed.
(** env: what the values of the program are *)
Theorem C130_rot90_sound (env : nat -> Z) self a b s ca cb : may_shape (sizes self) s -> can_rot90 s (env a) (env b) -> verify_rot90 self (Some [(a, ca); (b, cb)]) = true.
Proof.
  intros Ms (Rk & i & j & Ni & Nj & D). apply C130_rot90. intros l [= <-]. split; [reflexivity|]. intros s' E. rewrite E in Ms. cbn in Ms. rewrite (may_rank _ _ Ms). split; [exact Rk|]. cbn. constructor; [intros [Z|[]]; subst; apply D; exact (names_one _ _ _ _ Ni Nj)|]. constructor; [intros []|constructor].
Qed.
(** the same dimension given by two constants, or one that is out of range, is accepted *)
Theorem C130_rot90_refuted : ~ forall d s a b x y, verify_rot90 (known d s) (Some [(a, Some x); (b, Some y)]) = true -> can_rot90 s x y.
Proof. intros H. destruct (H DF32 [2; 2] 0%nat 1%nat 0 0 eq_refl) as (_ & i & j & Ni & Nj & D). apply D. exact (names_one _ _ _ _ Ni Nj). Qed.

(** ** count_nonzero *)
Theorem C130_count_nonzero self dim : verify_count_nonzero self dim = true <-> forall ds s, dtype self = Some ds -> sizes self = Some s -> dim <> DimOther /\ forall d, dim = DimInt (Some d) -> exists i, names (rank_of s) d i.
Proof.
  unfold verify_count_nonzero. destruct (dtype self) as [ds|]; [|split; [discriminate|reflexivity]]. destruct (sizes self) as [s|]; [|split; [discriminate|reflexivity]]. destruct dim as [|[d|]|]; try (split; [intros _ ? ? _ _; split; discriminate|reflexivity]); [|split; [discriminate|intros H; destruct (H _ _ eq_refl eq_refl); congruence]].
  rewrite negb_true_iff, <- names_range. split; [intros H ? ? _ [= <-]; split; [discriminate|intros ? [= <-]; exact H]|intros H; exact (proj2 (H _ _ eq_refl eq_refl) d eq_refl)].
Qed.
Theorem C130_count_nonzero_list self dims : verify_count_nonzero_list self dims = true <-> forall ds s, dtype self = Some ds -> sizes self = Some s -> exists l, dims = Some l /\ forall d, In d l -> exists i, names (rank_of s) d i.
Proof.
  unfold verify_count_nonzero_list. destruct (dtype self) as [ds|]; [|split; [discriminate|reflexivity]]. destruct (sizes self) as [s|]; [|split; [discriminate|reflexivity]]. destruct dims as [l|]; [|split; [discriminate|intros H; destruct (H _ _ eq_refl eq_refl) as (l & Z & _); discriminate]].
  rewrite forallb_forall. split.
  - intros H ? ? _ [= <-]. exists l. split; [reflexivity|]. intros d Id. apply names_range. rewrite <- negb_true_iff. exact (H d Id).
  - intros H d Id. destruct (H _ _ eq_refl eq_refl) as (l' & [= <-] & H1). apply negb_true_iff, names_range. exact (H1 d Id).
Qed.
(** a list of dimensions that are not constants is refused as soon as the shape is known *)
Theorem C130_count_nonzero_list_refuted : ~ forall self l s, may_shape (sizes self) s -> (forall d, In d l -> exists i, names (rank_of s) d i) -> forall dims, (dims = None \/ dims = Some l) -> verify_count_nonzero_list self dims = true.
Proof. intros H. specialize (H (known DF32 [2]) [0] [2] ltac:(repeat constructor) ltac:(intros d [<-|[]]; exists 0; unfold names, rank_of; cbn; lia) None (or_introl eq_refl)). discriminate. Qed.

(** ** triu_indices and tril_indices *)
Theorem C130_tri_indices row col offset code : verify_tri_indices row col offset code = true <-> forall r c o, row = Some r -> col = Some c -> offset = Some o -> 0 <= r /\ 0 <= c /\ forall t, code = Some t -> t = 3 \/ t = 4.
Proof.
  unfold verify_tri_indices. destruct row as [r|]; [|split; [discriminate|reflexivity]]. destruct col as [c|]; [|split; [discriminate|reflexivity]]. destruct offset as [o|]; [|split; [discriminate|reflexivity]].
  destruct (Z.ltb_spec r 0) as [L|L]; [split; [discriminate|intros H; destruct (H _ _ _ eq_refl eq_refl eq_refl); lia]|]. destruct (Z.ltb_spec c 0) as [L'|L']; [split; [discriminate|intros H; destruct (H _ _ _ eq_refl eq_refl eq_refl) as (_ & ? & _); lia]|].
  destruct code as [t|]; [|split; [intros _ ? ? ? [= <-] [= <-] _; repeat split; try lia; discriminate|reflexivity]]. rewrite orb_true_iff, !Z.eqb_eq. split; [intros H ? ? ? [= <-] [= <-] _; repeat split; try lia; intros ? [= <-]; exact H|]. intros H. exact (proj2 (proj2 (H _ _ _ eq_refl eq_refl eq_refl)) t eq_refl).
Qed.
Theorem C130_tri_indices_sound row col offset code r c t : may row r -> may col c -> may code t -> can_tri_indices r c t -> verify_tri_indices row col offset code = true.
Proof. intros M1 M2 M3 (H1 & H2 & H3). apply C130_tri_indices. intros r' c' o -> -> ->. cbn in *. subst. repeat split; try assumption. intros t' ->. cbn in M3. subst. exact H3. Qed.
Theorem C130_tri_indices_complete r c o t : verify_tri_indices (Some r) (Some c) (Some o) (Some t) = true -> can_tri_indices r c t.
Proof. intros V. destruct (proj1 (C130_tri_indices _ _ _ _) V _ _ _ eq_refl eq_refl eq_refl) as (H1 & H2 & H3). repeat split; try assumption. exact (H3 t eq_refl). Qed.

Example C130_nonvacuous :
  verify_permute (Some [Some (-1); None; Some 0]) {| dtype := None; sizes := Some [Some 5; None; Some 2] |} {| dtype := None; sizes := Some [Some 2; Some 3; Some 5] |} = true /\
  verify_permute (Some [Some 1; Some (-1)]) {| dtype := None; sizes := Some [None; None] |} {| dtype := None; sizes := Some [None; None] |} = false /\
  can_permute [2; 0; 1] [2; 3; 5] [5; 2; 3] /\ verify_cross (known DF32 [1; 3]) (known DF32 [4; 3]) (Some (-1)) = true /\ verify_kthvalue (known DF32 [4; 7]) (Some 8) (Some 1) = false /\
  can_rot90 [2; 2] 0 (-1) /\ can_renorm DF32 [2; 2] (NInt 2) (NFloat (Some Gt)) (-2).
Proof.
  repeat split; try reflexivity; try (cbn; lia); try (unfold rank_of; cbn; lia).
  - exists [2; 0; 1]. split; [repeat constructor; unfold names, rank_of; cbn; lia|]. split; [repeat constructor; cbn; intuition lia|]. split; [reflexivity|]. repeat constructor.
  - exists 0, 1. unfold names, rank_of. cbn. lia.
  - right. right. left. reflexivity.
  - left. reflexivity.
  - exists 0. unfold names, rank_of. cbn. lia.
Qed.
Print Assumptions C130_permute.
Print Assumptions C130_permute_sound.
Print Assumptions C130_permute_complete.
Print Assumptions C130_cross.
Print Assumptions C130_cross_sound_partial.
Print Assumptions C130_cross_sound_refuted.
Print Assumptions C130_cross_complete.
Print Assumptions C130_kthvalue.
Print Assumptions C130_kthvalue_sound.
Print Assumptions C130_kthvalue_complete.
Print Assumptions C130_scalar_refuted.
Print Assumptions C130_norm.
Print Assumptions C130_norm_refuted.
Print Assumptions C130_renorm.
Print Assumptions C130_renorm_sound.
Print Assumptions C130_renorm_complete_partial.
Print Assumptions C130_renorm_nan_refuted.
Print Assumptions C130_rot90.
Print Assumptions C130_rot90_sound.
Print Assumptions C130_rot90_refuted.
Print Assumptions C130_count_nonzero.
Print Assumptions C130_count_nonzero_list.
Print Assumptions C130_count_nonzero_list_refuted.
Print Assumptions C130_tri_indices.
Print Assumptions C130_tri_indices_sound.
Print Assumptions C130_tri_indices_complete.
