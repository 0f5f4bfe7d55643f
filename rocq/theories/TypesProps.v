(** C52, C53: subtyping and combination of torch types. *)
From Coq Require Import ZArith Lia Bool String List.
From Verif Require Import Prelude DtypeModel TypesModel TypesSpec.
Import ListNotations.
Open Scope list_scope.
Open Scope Z_scope.

Lemma ty_eqb_eq a : forall b, ty_eqb a b = true <-> a = b.
Proof.
  induction a as [x|n|u IH|u IH|ts IH|ts IH|k v IHk IHv|u] using ty_induction; intros b; destruct b; cbn [ty_eqb]; try (split; congruence).
  - destruct (atom_eq_dec x a); split; congruence.
  - rewrite String.eqb_eq. split; congruence.
  - rewrite IH. split; congruence.
  - rewrite IH. split; congruence.
  - transitivity (ts = ts0); [|split; congruence]. revert ts0.
    induction IH as [|t ts Ht _ IHts]; intros [|u us]; try (split; congruence).
    rewrite Bool.andb_true_iff, Ht, IHts. split; [intros [-> ->]; reflexivity|intros [= -> ->]; auto].
  - transitivity (ts = ts0); [|split; congruence]. revert ts0.
    induction IH as [|t ts Ht _ IHts]; intros [|u us]; try (split; congruence).
    rewrite Bool.andb_true_iff, Ht, IHts. split; [intros [-> ->]; reflexivity|intros [= -> ->]; auto].
  - rewrite Bool.andb_true_iff, IHk, IHv. split; [intros [-> ->]; reflexivity|intros [= -> ->]; auto].
  - destruct (tensor_eq_dec u t); split; congruence.
Qed.

Definition is_union (t : ty) : bool := match t with Union _ => true | _ => false end.
Lemma subtype_eq s t : isValidSubtype s t =
  if ty_eqb s t then true
  else
    match s with
    | Union cs => forallb (fun c => isValidSubtype c t) cs
    | _ =>
        match t with
        | Atom AnyA => true
        | Atom NumberA => match s with Atom IntA | Atom FloatA => true | _ => false end
        | Optional u => isValidSubtype s u || match s with Atom NoneA => true | _ => false end
        | Union cs => existsb (isValidSubtype s) cs
        | Tuple types => match s with Tuple ss => if negb (zlen ss =? zlen types) then false else forallb2 isValidSubtype ss types | _ => false end
        | Tens u => match s with Tens r => tensor_subtype r u | _ => false end
        | _ => false
        end
    end.
Proof. destruct s, t; reflexivity. Qed.

(** ** Tensor types *)
Lemma sizes_agree_spec a : forall b, length a = length b -> (sizes_agree a b = true <-> Forall2 fits_size a b).
Proof.
  induction a as [|x a IH]; intros [|y b] L; try discriminate L; cbn [sizes_agree].
  - split; auto.
  - injection L as L. unfold unknown_size.
    destruct (Z.eqb_spec x (-1)); destruct (Z.eqb_spec x y); cbn [negb andb]; try rewrite (IH b L); split; intro H;
      try (constructor; [unfold fits_size; auto|assumption]); try (inversion H; subst; assumption); try discriminate H.
    inversion H as [|? ? ? ? [F|F] _]; subst; congruence.
Qed.
Lemma isSubsizes_spec a b : isSubsizes a b = true <-> Forall2 fits_size a b.
Proof.
  unfold isSubsizes. unfold zlen. destruct (Z.eqb_spec (Z.of_nat (length a)) (Z.of_nat (length b))) as [E|E]; cbn [negb].
  - apply sizes_agree_spec. lia.
  - split; [discriminate|]. intros F. apply Forall2_len in F. lia.
Qed.
Lemma tensor_subtype_spec s t : tensor_subtype s t = true <-> refines s t.
Proof.
  unfold tensor_subtype, refines. destruct (Bool.eqb (value_semantics s) (value_semantics t)) eqn:E; cbn [negb].
  - apply Bool.eqb_prop in E. rewrite Bool.andb_true_iff. split.
    + intros [D Z]. split; [exact E|split].
      * destruct (elt t) as [d|]; [|left; reflexivity]. right. destruct (elt s) as [d'|]; [|discriminate]. destruct (dtype_eq_dec d d'); congruence.
      * destruct (sizes t) as [a|]; [|left; reflexivity]. right. destruct (sizes s) as [b|]; [|discriminate].
        exists a, b. repeat split. apply isSubsizes_spec, Z.
    + intros (_ & D & Z). split.
      * destruct (elt t) as [d|]; [|reflexivity]. destruct D as [D|D]; [discriminate|]. rewrite <- D. destruct (dtype_eq_dec d d); congruence.
      * destruct (sizes t) as [a|]; [|reflexivity]. destruct Z as [Z|(a' & b & [= <-] & -> & F)]; [discriminate|]. apply isSubsizes_spec, F.
  - split; [discriminate|]. intros [V _]. rewrite V, Bool.eqb_reflx in E. discriminate.
Qed.

(** ** The function decides the declarative relation *)
Lemma sub_union_members cs t : sub (Union cs) t -> forall c, In c cs -> sub c t.
Proof.
  intros H. remember (Union cs) as s eqn:E. induction H; intros d I; subst; try discriminate.
  - eapply sub_union_right; [exact I|constructor].
  - constructor.
  - constructor. apply IHsub; auto.
  - injection E as ->. auto.
  - eapply sub_union_right; [eassumption|]. apply IHsub; auto.
Qed.
Lemma tsize_in t ts : In t ts -> (tsize t <= list_sum (map tsize ts))%nat.
Proof. induction ts as [|u ts IH]; [intros []|]. intros [->|I]; cbn; [lia|]. specialize (IH I). unfold list_sum in IH. lia. Qed.
Lemma tsize_pos t : (1 <= tsize t)%nat. Proof. destruct t; cbn; lia. Qed.
Lemma forallb2_spec {A B} (f : A -> B -> bool) (R : A -> B -> Prop) l : forall m, length l = length m ->
  (forall x y, In x l -> In y m -> (f x y = true <-> R x y)) -> (forallb2 f l m = true <-> Forall2 R l m).
Proof.
  induction l as [|x l IH]; intros [|y m] L H; try discriminate L; cbn [forallb2]; [split; auto|].
  injection L as L. rewrite Bool.andb_true_iff, (H x y), (IH m L); [|intros; apply H; right; assumption|left; reflexivity|left; reflexivity].
  split; [intros []; constructor; auto|inversion 1; auto].
Qed.
Lemma subtype_decides n : forall s t, (tsize s + tsize t <= n)%nat -> (isValidSubtype s t = true <-> sub s t).
Proof.
  induction n as [|n IH]; intros s t L; [pose proof (tsize_pos s); lia|].
  rewrite subtype_eq. destruct (ty_eqb s t) eqn:E; [apply ty_eqb_eq in E as ->; split; auto; constructor|].
  assert (NE : s <> t) by (intros <-; rewrite (proj2 (ty_eqb_eq s s) eq_refl) in E; discriminate). clear E.
  destruct (is_union s) eqn:U.
  - destruct s as [| | | | |cs| |]; try discriminate U. rewrite forallb_forall. split.
    + intros H. apply sub_union_left. intros c I. apply IH; [|auto]. pose proof (tsize_in c cs I). cbn [tsize] in L. lia.
    + intros H c I. apply IH; [|eapply sub_union_members; eassumption]. pose proof (tsize_in c cs I). cbn [tsize] in L. lia.
  - assert (S : forall u, t = Optional u -> (isValidSubtype s u = true <-> sub s u)) by (intros u ->; apply IH; cbn [tsize] in L; lia).
    transitivity (match t with
                  | Atom AnyA => True
                  | Atom NumberA => s = Atom IntA \/ s = Atom FloatA
                  | Optional u => isValidSubtype s u = true \/ s = Atom NoneA
                  | Union cs => exists c, In c cs /\ isValidSubtype s c = true
                  | Tuple ts => exists ss, s = Tuple ss /\ Forall2 sub ss ts
                  | Tens v => exists u, s = Tens u /\ refines u v
                  | _ => False end).
    + destruct t as [a|m|u|u|ts|cs|k v|v].
      * destruct a; destruct s as [[]| | | | | | |]; try discriminate U; intuition congruence.
      * destruct s; try discriminate U; split; try discriminate; intros [].
      * assert (N : forall b, (b || match s with Atom NoneA => true | _ => false end) = true <-> b = true \/ s = Atom NoneA).
        { intros b. rewrite Bool.orb_true_iff. destruct s as [[]| | | | | | |]; intuition congruence. }
        rewrite <- N. destruct s as [b| | | | | | |]; try discriminate U; reflexivity.
      * destruct s; try discriminate U; split; try discriminate; intros [].
      * destruct s as [| | | |ss| | |]; try discriminate U; try (split; [discriminate|intros (? & X & _); discriminate X]).
        unfold zlen. destruct (Z.eqb_spec (Z.of_nat (length ss)) (Z.of_nat (length ts))) as [LE|LE]; cbn [negb].
        -- rewrite (forallb2_spec _ sub); [| lia |].
           ++ split; [eauto|intros (? & [= <-] & F); exact F].
           ++ intros x y I J. apply IH. pose proof (tsize_in x ss I). pose proof (tsize_in y ts J). cbn [tsize] in L. lia.
        -- split; [discriminate|]. intros (? & [= <-] & F). apply Forall2_len in F. lia.
      * rewrite <- existsb_exists. destruct s; try discriminate U; reflexivity.
      * destruct s; try discriminate U; split; try discriminate; intros [].
      * destruct s as [| | | | | | |u]; try discriminate U; try (split; [discriminate|intros (? & X & _); discriminate X]).
        rewrite tensor_subtype_spec. split; [eauto|intros (? & [= <-] & F); exact F].
    + split.
      * destruct t as [a|m|u|u|ts|cs|k v|v]; try (intros []; fail).
        -- destruct a; try (intros []; fail); [constructor|]. intros [->| ->]; constructor.
        -- intros [H| ->]; [apply sub_some, S; auto|constructor].
        -- intros (ss & -> & F). constructor; exact F.
        -- intros (c & I & H). eapply sub_union_right; [exact I|]. apply IH; [|exact H]. pose proof (tsize_in c cs I). cbn [tsize] in L. lia.
        -- intros (u & -> & F). constructor; exact F.
      * intros H. destruct H; auto; try discriminate U; try (exfalso; apply NE; reflexivity).
        -- left. apply S; auto.
        -- exists c. split; [assumption|]. apply IH; [|assumption]. pose proof (tsize_in c cs H). cbn [tsize] in L. lia.
        -- eauto.
        -- eauto.
Qed.

(** C52: the function of the compiler decides the declarative subtyping relation. *)
Theorem C52_subtyping_decides_relation s t : isValidSubtype s t = true <-> sub s t.
Proof. eapply subtype_decides. reflexivity. Qed.
Example C52_nonvacuous :
  isValidSubtype (Union [Atom IntA; Atom NoneA]) (Optional (Atom NumberA)) = true /\
  isValidSubtype (Tuple [Atom FloatA; Tens {| value_semantics := true; sizes := Some [2; 3]; elt := Some (Builtin (FloatT F32)); sparsity := None |}])
                 (Tuple [Atom NumberA; Tens {| value_semantics := true; sizes := Some [2; -1]; elt := None; sparsity := None |}]) = true /\
  isValidSubtype (Tens {| value_semantics := true; sizes := Some [2; -1]; elt := None; sparsity := None |})
                 (Tens {| value_semantics := true; sizes := Some [2; 3]; elt := None; sparsity := None |}) = false.
Proof. repeat split; reflexivity. Qed.

Theorem C52_subtyping_reflexive t : isValidSubtype t t = true.
Proof. apply C52_subtyping_decides_relation. constructor. Qed.

Lemma fits_trans a : forall b c, Forall2 fits_size a b -> Forall2 fits_size b c -> Forall2 fits_size a c.
Proof.
  induction a as [|x a IH]; intros b c F G; inversion F; subst; inversion G; subst; constructor; eauto.
  unfold fits_size in *. intuition congruence.
Qed.
Lemma refines_trans s t u : refines s t -> refines t u -> refines s u.
Proof.
  intros (V & D & Z) (V' & D' & Z'). split; [congruence|split].
  - intuition congruence.
  - destruct Z' as [Z'|(a & b & E & E' & F)]; [left; exact Z'|right].
    destruct Z as [Z|(a' & b' & F1 & F2 & G)]; [congruence|]. assert (a' = b) by congruence. subst a'.
    exists a, b'. repeat split; auto. eapply fits_trans; eassumption.
Qed.
Lemma Forall2_trans_in {A} (R : A -> A -> Prop) l : forall m k,
  (forall x y z, In x l -> In y m -> In z k -> R x y -> R y z -> R x z) -> Forall2 R l m -> Forall2 R m k -> Forall2 R l k.
Proof.
  induction l as [|x l IH]; intros m k H F G; inversion F; subst; inversion G; subst; constructor.
  - eapply H; try (left; reflexivity); eassumption.
  - eapply IH; [|eassumption|eassumption]. intros; eapply H; try (right; eassumption); eassumption.
Qed.
Lemma sub_trans_n n : forall s t u, (tsize s + tsize t + tsize u <= n)%nat -> sub s t -> sub t u -> sub s u.
Proof.
  induction n as [|n IH]; intros s t u L H K; [pose proof (tsize_pos s); lia|].
  destruct (is_union s) eqn:U.
  - destruct s as [| | | | |cs| |]; try discriminate U. apply sub_union_left. intros c I.
    apply (IH c t u); [pose proof (tsize_in c cs I); cbn [tsize] in L; lia| |exact K]. eapply sub_union_members; eassumption.
  - destruct (is_union t) eqn:U'.
    + destruct t as [| | | | |ts| |]; try discriminate U'. inversion H; subst; try discriminate U.
      apply (IH s c u); [|assumption|eapply sub_union_members; eassumption].
      match goal with I : In c ts |- _ => pose proof (tsize_in c ts I) end. cbn [tsize] in L. lia.
    + inversion K; subst; try discriminate U'; try (constructor; fail).
      * exact H.
      * inversion H; subst; try discriminate U; constructor.
      * inversion H; subst; try discriminate U; constructor.
      * inversion H; subst; try discriminate U; constructor.
      * apply sub_some. apply (IH s t t0); auto. cbn [tsize] in L. lia.
      * eapply sub_union_right; [eassumption|]. apply (IH s t c); auto.
        match goal with I : In c cs |- _ => pose proof (tsize_in c cs I) end. cbn [tsize] in L. lia.
      * inversion H; subst; try discriminate U; [assumption|]. constructor.
        eapply Forall2_trans_in; [|eassumption|eassumption]. intros x y z I J I' X Y. apply (IH x y z); auto.
        pose proof (tsize_in _ _ I). pose proof (tsize_in _ _ J). pose proof (tsize_in _ _ I'). cbn [tsize] in L. lia.
      * inversion H; subst; try discriminate U; [assumption|]. constructor. eapply refines_trans; eassumption.
Qed.
Theorem C52_subtyping_transitive s t u :
  isValidSubtype s t = true -> isValidSubtype t u = true -> isValidSubtype s u = true.
Proof. rewrite !C52_subtyping_decides_relation. eapply sub_trans_n. reflexivity. Qed.

(** ** Soundness for values *)
Lemma refines_describes s t : refines s t -> forall x, describes s x -> describes t x.
Proof.
  intros (V & D & Z) x (A & B & C). split; [congruence|split].
  - destruct Z as [->|(a & b & -> & E & F)]; [exact I|]. rewrite E in B. eapply fits_trans; eassumption.
  - destruct D as [->| ->]; [exact I|exact C].
Qed.
Lemma has_union P cs v : has P (Union cs) v <-> exists c, In c cs /\ has P c v.
Proof.
  cbn [has]. induction cs as [|c cs IH]; [split; [intros []|intros (? & [] & _)]|]. rewrite IH. split.
  - intros [H|(d & I & H)]; [exists c|exists d]; cbn; auto.
  - intros (d & [->|I] & H); [left; exact H|right; eauto].
Qed.
Lemma has_tuple P ts v : has P (Tuple ts) v <-> exists l, v = VTuple l /\ Forall2 (has P) ts l.
Proof.
  cbn [has]. split; intros (l & E & H); exists l; (split; [exact E|]); clear E v.
  - revert l H. induction ts as [|t ts IH]; intros [|x l] H; try (destruct H; fail); constructor; [|apply IH]; apply H.
  - induction H as [|t x ts l T F IH]; [exact I|split; assumption].
Qed.
Lemma sub_sound n : forall s t, (tsize s + tsize t <= n)%nat -> sub s t -> forall v, has describes s v -> has describes t v.
Proof.
  induction n as [|n IH]; intros s t L H v V; [pose proof (tsize_pos s); lia|]. destruct H; cbn [tsize] in L.
  - exact V.
  - exact I.
  - destruct v; try destruct V; exact I.
  - destruct v; try destruct V; exact I.
  - left. destruct v; try destruct V; reflexivity.
  - right. apply (IH s t); auto. lia.
  - apply has_union in V as (c & J & V). apply (IH c t); auto. pose proof (tsize_in c cs J). lia.
  - apply has_union. exists c. split; [assumption|]. apply (IH s c); auto. pose proof (tsize_in c cs H). lia.
  - apply has_tuple in V as (l & -> & F). apply has_tuple. exists l. split; [reflexivity|].
    assert (G : forall x y, In x ss -> In y ts -> sub x y -> forall w, has describes x w -> has describes y w).
    { intros x y J K. apply IH. pose proof (tsize_in x ss J). pose proof (tsize_in y ts K). lia. }
    clear L IH. revert l F G. induction H as [|x y ss ts X _ IHF]; intros l F G; inversion F; subst; constructor.
    + eapply (G x y); cbn; auto.
    + apply IHF; auto. intros a b J K; apply G; cbn; auto.
  - destruct V as (x & -> & D). exists x. split; [reflexivity|]. eapply refines_describes; eassumption.
Qed.
(** C52: a value of the subtype is a value of the type. *)
Theorem C52_subtyping_sound s t : isValidSubtype s t = true -> forall v, has describes s v -> has describes t v.
Proof. rewrite C52_subtyping_decides_relation. eapply sub_sound. reflexivity. Qed.
Example C52_sound_nonvacuous :
  has describes (Union [Atom IntA; Tuple [Atom BoolA]]) (VTuple [VBool true]) /\
  ~ has describes (Tens {| value_semantics := true; sizes := Some [2; -1]; elt := None; sparsity := None |})
                  (VTensor {| by_value := true; shape := [3; 4]; dtype_of := StringD; storage := None |}).
Proof.
  split; [right; left; exists [VBool true]; cbn; auto|]. intros (x & [= <-] & _ & F & _). cbn in F.
  inversion F as [|? ? ? ? [A|A] _]; subst; discriminate.
Qed.

(** Two shapes that differ in one axis, both described by [s]. *)
Lemma inhabitant s : Forall size_ok s -> Forall2 fits_size s (map (fun x => if x =? -1 then 0 else x) s).
Proof. induction 1 as [|x s O _ IH]; cbn; constructor; auto. unfold fits_size. destruct (Z.eqb_spec x (-1)); auto. Qed.
Lemma inhabitant' s : Forall size_ok s -> Forall2 fits_size s (map (fun x => if x =? -1 then 1 else x) s).
Proof. induction 1 as [|x s O _ IH]; cbn; constructor; auto. unfold fits_size. destruct (Z.eqb_spec x (-1)); auto. Qed.
Lemma fits_both s : forall t, Forall2 fits_size t (map (fun x => if x =? -1 then 0 else x) s) ->
  Forall2 fits_size t (map (fun x => if x =? -1 then 1 else x) s) -> Forall2 fits_size t s.
Proof.
  induction s as [|x s IH]; intros t F G; cbn in *; inversion F as [|y ? t' ? A A']; subst; inversion G as [|? ? ? ? B B']; subst; constructor; auto.
  unfold fits_size in *. destruct (Z.eqb_spec x (-1)); [|exact A]. left. lia.
Qed.
(** C52: on tensor types the answer is exact: it is true only when every described tensor is described. *)
Theorem C52_tensor_subtyping_exact s t : sizes_ok s ->
  (isValidSubtype (Tens s) (Tens t) = true <-> forall x, describes s x -> describes t x).
Proof.
  intros OK. split.
  - intros H x D. destruct (C52_subtyping_sound _ _ H (VTensor x)) as (y & [= <-] & E); [exists x; auto|exact E].
  - intros H. apply C52_subtyping_decides_relation. constructor.
    set (mk := fun sh d => {| by_value := value_semantics s; shape := sh; dtype_of := d; storage := None |}).
    set (d0 := match elt s with Some d => d | None => StringD end).
    set (d1 := match elt s with Some d => d | None => F8E4M3B11FNUZ end).
    assert (X : forall sh d, (d = d0 \/ d = d1) -> (match sizes s with Some l => Forall2 fits_size l sh | None => True end) -> describes t (mk sh d)).
    { intros sh d D F. apply H. split; [reflexivity|split; [exact F|]]. unfold d0, d1 in D. destruct (elt s); [cbn; intuition congruence|exact I]. }
    assert (E : exists sh, match sizes s with Some l => Forall2 fits_size l sh | None => True end).
    { unfold sizes_ok in OK. destruct (sizes s) as [l|]; [eexists; apply inhabitant, OK|exists []; exact I]. }
    destruct E as [sh E]. destruct (X sh d0 (or_introl eq_refl) E) as (V & _ & D0). destruct (X sh d1 (or_intror eq_refl) E) as (_ & _ & D1).
    cbn in V, D0, D1. split; [exact V|split].
    + destruct (elt t) as [d|]; [|left; reflexivity]. right. unfold d0, d1 in *. destruct (elt s); congruence.
    + destruct (sizes t) as [a|] eqn:Et; [|left; reflexivity]. right.
      destruct (sizes s) as [l|] eqn:Es.
      * exists a, l. repeat split. unfold sizes_ok in OK. rewrite Es in OK. apply fits_both.
        -- destruct (X _ d0 (or_introl eq_refl) (inhabitant l OK)) as (_ & F & _). rewrite Et in F. exact F.
        -- destruct (X _ d0 (or_introl eq_refl) (inhabitant' l OK)) as (_ & F & _). rewrite Et in F. exact F.
      * exfalso. destruct (X (repeat 0 (S (length a))) d0 (or_introl eq_refl) I) as (_ & F & _). rewrite Et in F.
        apply Forall2_len in F. cbn in F. rewrite repeat_length in F. lia.
Qed.
Example C52_exact_nonvacuous :
  sizes_ok {| value_semantics := true; sizes := Some [2; -1]; elt := None; sparsity := None |} /\
  describes {| value_semantics := true; sizes := Some [2; -1]; elt := None; sparsity := None |}
            {| by_value := true; shape := [2; 7]; dtype_of := StringD; storage := None |}.
Proof. split; [repeat constructor; unfold size_ok; lia|]. repeat split; cbn. repeat constructor; unfold fits_size; lia. Qed.

(** C52: storage is not compared, so that subtyping is not sound for tensors that must be stored sparsely. *)
Theorem C52_subtyping_ignores_storage_refuted e :
  let dense := {| value_semantics := true; sizes := Some [2; 2]; elt := Some (Builtin (FloatT F32)); sparsity := None |} in
  let sparse := {| value_semantics := true; sizes := Some [2; 2]; elt := Some (Builtin (FloatT F32)); sparsity := Some e |} in
  let x := {| by_value := true; shape := [2; 2]; dtype_of := Builtin (FloatT F32); storage := None |} in
  isValidSubtype (Tens dense) (Tens sparse) = true /\
  (describes dense x /\ stored_as dense x) /\ ~ stored_as sparse x.
Proof.
  intros dense sparse x. assert (F : Forall2 fits_size [2; 2] [2; 2]) by (repeat constructor; right; reflexivity).
  repeat split; try exact F. cbn. discriminate.
Qed.
(** C52: the relation is incomplete for optional types: inclusion of values does not imply subtyping. *)
Theorem C52_subtyping_incomplete_refuted :
  (forall v, has describes (Optional (Atom IntA)) v -> has describes (Optional (Atom NumberA)) v) /\
  isValidSubtype (Optional (Atom IntA)) (Optional (Atom NumberA)) = false /\
  (forall v, has describes (Optional (Atom IntA)) v <-> has describes (Union [Atom IntA; Atom NoneA]) v) /\
  isValidSubtype (Optional (Atom IntA)) (Union [Atom IntA; Atom NoneA]) = false /\
  isValidSubtype (Union [Atom IntA; Atom NoneA]) (Optional (Atom IntA)) = true.
Proof.
  repeat split; try reflexivity.
  - intros v [->|H]; [left; reflexivity|right; destruct v; try destruct H; exact I].
  - cbn. intros [->|H]; auto.
  - cbn. intros [H|[H|[]]]; [right; exact H|left]. destruct v; try destruct H; reflexivity.
Qed.
(** C52: lists and dictionaries, which can be mutated, are invariant. *)
Theorem C52_containers_invariant s t k v k' v' :
  (isValidSubtype (List_ s) (List_ t) = true <-> s = t) /\
  (isValidSubtype (Dict k v) (Dict k' v') = true <-> k = k' /\ v = v').
Proof.
  rewrite !C52_subtyping_decides_relation. split; split.
  - inversion 1; reflexivity.
  - intros ->. constructor.
  - inversion 1; auto.
  - intros [-> ->]. constructor.
Qed.

(** * C53 *)
Lemma meet_sizes_spec l : forall r, length l = length r ->
  match meet_sizes l r with
  | Some m => forall sh, Forall2 fits_size m sh <-> Forall2 fits_size l sh /\ Forall2 fits_size r sh
  | None => forall sh, ~ (Forall2 fits_size l sh /\ Forall2 fits_size r sh)
  end.
Proof.
  induction l as [|x l IH]; intros [|y r] L; try discriminate L; cbn [meet_sizes obind].
  - intros sh. tauto.
  - injection L as L. specialize (IH r L). unfold unknown_size.
    assert (C : forall sh, Forall2 fits_size (x :: l) sh /\ Forall2 fits_size (y :: r) sh <->
      match sh with [] => False | n :: sh' => fits_size x n /\ fits_size y n /\ Forall2 fits_size l sh' /\ Forall2 fits_size r sh' end).
    { intros [|n sh]; split.
      - intros [F _]; inversion F.
      - intros [].
      - intros [F G]; inversion F; inversion G; subst; auto.
      - intros (? & ? & ? & ?); split; constructor; auto. }
    assert (K : forall z, (forall n, fits_size z n <-> fits_size x n /\ fits_size y n) ->
      match obind (meet_sizes l r) (fun rest => Some (z :: rest)) with
      | Some m => forall sh, Forall2 fits_size m sh <-> Forall2 fits_size (x :: l) sh /\ Forall2 fits_size (y :: r) sh
      | None => forall sh, ~ (Forall2 fits_size (x :: l) sh /\ Forall2 fits_size (y :: r) sh) end).
    { intros z Z. destruct (meet_sizes l r) as [m|]; cbn [obind].
      - intros [|n sh]; rewrite C; [split; [intros F; inversion F|intros []]|]. split.
        + intros F; inversion F as [|? ? ? ? A B]; subst. apply Z in A as [? ?]. apply IH in B as [? ?]. auto.
        + intros (A & B & D & E). constructor; [apply Z; auto|apply IH; auto].
      - intros [|n sh]; rewrite C; [tauto|]. intros (A & B & D & E). apply (IH sh); auto. }
    destruct (Z.eqb_spec x y); [subst; cbn [obind]; apply K; intros; tauto|].
    destruct (Z.eqb_spec x (-1)); [cbn [obind]; apply K; unfold fits_size; intros; intuition lia|].
    destruct (Z.eqb_spec y (-1)); [cbn [obind]; apply K; unfold fits_size; intros; intuition lia|].
    cbn [obind]. intros [|k sh]; rewrite C; [tauto|]. unfold fits_size. intros ([|] & [|] & _); lia.
Qed.
Definition facts (t : tensor_type) (x : tensor) : Prop :=
  match sizes t with None => True | Some s => Forall2 fits_size s (shape x) end /\
  match elt t with None => True | Some d => d = dtype_of x end.
Lemma describes_facts t x : describes t x <-> by_value x = value_semantics t /\ facts t x.
Proof. unfold describes, facts. tauto. Qed.
Lemma meet_facts l r :
  match meetTensorTypes l r with
  | Some m => forall x, facts m x <-> facts l x /\ facts r x
  | None => forall x, ~ (facts l x /\ facts r x)
  end.
Proof.
  unfold meetTensorTypes, facts.
  destruct (elt l) as [a|], (elt r) as [b|]; cbn [or_else]; try (destruct (dtype_eq_dec a b) as [<-|N]; cbn [obind]); cbn [obind];
  try (intros x; intuition congruence).
  all: destruct (sizes l) as [s|], (sizes r) as [s'|]; cbn [or_else obind sizes elt];
    try (intros x; tauto); unfold guard, zlen;
    try (destruct (Z.eqb_spec (Z.of_nat (length s)) (Z.of_nat (length s'))) as [E|E]; cbn [obind];
         [|intros x [[F _] [G _]]; apply Forall2_len in F; apply Forall2_len in G; lia]).
  all: try match goal with |- context [meet_sizes ?p ?q] => pose proof (meet_sizes_spec p q ltac:(reflexivity || lia)) as M; destruct (meet_sizes p q) as [m|]; cbn [obind sizes elt] end.
  all: intros x; specialize (M (shape x)); tauto.
Qed.
(** C53: the result describes exactly the tensors both operands describe, whenever one of the operands has sizes
    or they are value tensors. *)
Theorem C53_meet_describes_common l r : value_semantics l = value_semantics r ->
  (value_semantics l = true \/ sizes l <> None \/ sizes r <> None) ->
  match meetTensorTypes l r with
  | Some m => forall x, describes m x <-> describes l x /\ describes r x
  | None => forall x, ~ (describes l x /\ describes r x)
  end.
Proof.
  intros V W. pose proof (meet_facts l r) as M.
  assert (K : forall m, meetTensorTypes l r = Some m -> value_semantics m = value_semantics l).
  { unfold meetTensorTypes. intros m. destruct (match elt l with Some _ => _ | None => _ end); cbn [obind]; [|discriminate].
    destruct (sizes l) as [s|], (sizes r) as [s'|]; cbn [or_else obind];
      try (destruct (guard _); cbn [obind]; [|discriminate]); try (destruct (meet_sizes _ _); cbn [obind]; [|discriminate]);
      intros [= <-]; cbn; try reflexivity. destruct W as [W|[W|W]]; congruence. }
  destruct (meetTensorTypes l r) as [m|]; intros x; rewrite !describes_facts; specialize (M x).
  - rewrite (K m eq_refl), M, V. tauto.
  - tauto.
Qed.
Example C53_nonvacuous :
  meetTensorTypes {| value_semantics := true; sizes := Some [2; -1; 4]; elt := None; sparsity := None |}
                  {| value_semantics := true; sizes := Some [-1; 3; 4]; elt := Some StringD; sparsity := None |} =
    Some {| value_semantics := true; sizes := Some [2; 3; 4]; elt := Some StringD; sparsity := None |} /\
  meetTensorTypes {| value_semantics := true; sizes := Some [2]; elt := None; sparsity := None |}
                  {| value_semantics := true; sizes := Some [3]; elt := None; sparsity := None |} = None.
Proof. split; reflexivity. Qed.
(** C53: it succeeds exactly when some tensor is described by both. *)
Lemma meet_none_inhabited s : Forall size_ok s -> exists sh, Forall2 fits_size s sh.
Proof. intros F. eexists. apply inhabitant, F. Qed.
Lemma meet_sizes_ok l : forall r m, Forall size_ok l -> Forall size_ok r -> meet_sizes l r = Some m -> Forall size_ok m.
Proof.
  induction l as [|x l IH]; intros r m F G E; [destruct r; injection E as <-; constructor|].
  destruct r as [|y r]; [discriminate E|]. cbn [meet_sizes] in E.
  apply Forall_cons_iff in F as [X F]. apply Forall_cons_iff in G as [Y G].
  destruct (if x =? y then _ else _) as [z|] eqn:Z; cbn [obind] in E; [|discriminate].
  destruct (meet_sizes l r) as [k|] eqn:K; cbn [obind] in E; [|discriminate]. injection E as <-. constructor; [|eapply IH; eassumption].
  destruct (x =? y); [congruence|]. destruct (x =? unknown_size); [congruence|]. destruct (y =? unknown_size); [congruence|discriminate].
Qed.
Lemma meet_ok l r m : sizes_ok l -> sizes_ok r -> meetTensorTypes l r = Some m -> sizes_ok m.
Proof.
  unfold meetTensorTypes, sizes_ok. intros OL OR E. destruct (match elt l with Some _ => _ | None => _ end); cbn [obind] in E; [|discriminate].
  destruct (sizes l) as [s|], (sizes r) as [s'|]; cbn [or_else obind] in E;
    try (destruct (guard _); cbn [obind] in E; [|discriminate]);
    try (injection E as <-; exact I);
    match type of E with context [meet_sizes ?a ?b] => destruct (meet_sizes a b) eqn:Q end; cbn [obind] in E; try discriminate E;
    injection E as <-; cbn; (eapply meet_sizes_ok; [| |exact Q]; assumption).
Qed.
Theorem C53_meet_fails_iff_contradictory l r : value_semantics l = value_semantics r -> sizes_ok l -> sizes_ok r ->
  (meetTensorTypes l r = None <-> forall x, ~ (describes l x /\ describes r x)).
Proof.
  intros V OL OR. pose proof (meet_facts l r) as M. split.
  - intros E x. rewrite E in M. rewrite !describes_facts. specialize (M x). tauto.
  - intros H. destruct (meetTensorTypes l r) as [m|] eqn:E; [|reflexivity]. exfalso.
    assert (OM : sizes_ok m).
    { exact (meet_ok l r m OL OR E). }
    assert (X : exists sh, match sizes m with None => True | Some s => Forall2 fits_size s sh end).
    { unfold sizes_ok in OM. destruct (sizes m); [apply meet_none_inhabited, OM|exists []; exact I]. }
    destruct X as [sh X].
    pose proof (M {| by_value := value_semantics l; shape := sh; dtype_of := match elt m with Some d => d | None => StringD end; storage := None |}) as Mx.
    assert (Fm : facts m {| by_value := value_semantics l; shape := sh; dtype_of := match elt m with Some d => d | None => StringD end; storage := None |}).
    { split; [exact X|cbn; destruct (elt m); auto]. }
    apply Mx in Fm as [A B]. refine (H _ (conj _ _)); apply describes_facts; (split; [|eassumption]); cbn; congruence.
Qed.
(** C53: order of operands does not matter. *)
Lemma meet_sizes_comm l : forall r, length l = length r -> meet_sizes l r = meet_sizes r l.
Proof.
  induction l as [|x l IH]; intros [|y r] L; try discriminate L; [reflexivity|]. injection L as L. cbn [meet_sizes]. rewrite (IH r L).
  rewrite (Z.eqb_sym y x). destruct (Z.eqb_spec x y); [subst; reflexivity|]. unfold unknown_size.
  destruct (Z.eqb_spec x (-1)), (Z.eqb_spec y (-1)); subst; try reflexivity; congruence.
Qed.
Lemma meet_sizes_idem l : meet_sizes l l = Some l.
Proof. induction l as [|x l IH]; [reflexivity|]. cbn [meet_sizes]. rewrite Z.eqb_refl. cbn [obind]. rewrite IH. reflexivity. Qed.
Theorem C53_meet_commutative l r : value_semantics l = value_semantics r -> meetTensorTypes l r = meetTensorTypes r l.
Proof.
  intros V. unfold meetTensorTypes. rewrite V. set (cl := elt l). set (cr := elt r).
  assert (E : (match cl with Some a => match cr with Some b => if dtype_eq_dec a b then Some tt else None | None => Some tt end | None => Some tt end)
            = (match cr with Some a => match cl with Some b => if dtype_eq_dec a b then Some tt else None | None => Some tt end | None => Some tt end)).
  { destruct cl as [a|], cr as [b|]; try reflexivity. destruct (dtype_eq_dec a b), (dtype_eq_dec b a); congruence. }
  rewrite <- E. destruct (match cl with Some _ => _ | None => _ end) eqn:D; [cbn [obind]|reflexivity].
  assert (O : or_else cl cr = or_else cr cl).
  { destruct cl as [a|], cr as [b|]; try reflexivity. destruct (dtype_eq_dec a b); [subst; reflexivity|discriminate]. }
  rewrite <- O. destruct (sizes l) as [s|], (sizes r) as [s'|]; cbn [or_else obind]; try reflexivity.
  rewrite (Z.eqb_sym (zlen s') (zlen s)). unfold guard, zlen. destruct (Z.eqb_spec (Z.of_nat (length s)) (Z.of_nat (length s'))); [|reflexivity].
  cbn [obind]. rewrite meet_sizes_comm by lia. reflexivity.
Qed.
Theorem C53_meet_idempotent t : (value_semantics t = true \/ sizes t <> None) -> meetTensorTypes t t = Some (forget_storage t).
Proof.
  intros W. unfold meetTensorTypes, forget_storage. destruct (elt t) as [d|]; cbn [or_else].
  1: destruct (dtype_eq_dec d d); [|congruence]. all: cbn [obind].
  all: destruct (sizes t) as [s|]; cbn [or_else obind]; unfold guard; try rewrite Z.eqb_refl; cbn [obind]; try rewrite meet_sizes_idem; cbn [obind];
    try reflexivity; destruct W as [->|[]]; reflexivity.
Qed.
(** C53: the result of combining is a subtype of both operands (storage aside), and the greatest one. *)
Theorem C53_meet_is_greatest_lower_bound l r : value_semantics l = value_semantics r -> sizes_ok l -> sizes_ok r ->
  (value_semantics l = true \/ sizes l <> None \/ sizes r <> None) ->
  match meetTensorTypes l r with
  | Some m => isValidSubtype (Tens m) (Tens l) = true /\ isValidSubtype (Tens m) (Tens r) = true /\
      forall t, sizes_ok t -> isValidSubtype (Tens t) (Tens l) = true -> isValidSubtype (Tens t) (Tens r) = true -> isValidSubtype (Tens t) (Tens m) = true
  | None => forall t, sizes_ok t -> ~ (isValidSubtype (Tens t) (Tens l) = true /\ isValidSubtype (Tens t) (Tens r) = true)
  end.
Proof.
  intros V OL OR W. pose proof (C53_meet_describes_common l r V W) as M. destruct (meetTensorTypes l r) as [m|] eqn:E.
  - assert (OM : sizes_ok m).
    { exact (meet_ok l r m OL OR E). }
    repeat split; [apply C52_tensor_subtyping_exact; [assumption|]; intros x D; apply M, D ..|].
    intros t OT A B. apply C52_tensor_subtyping_exact; [assumption|]. intros x D. apply M.
    rewrite C52_tensor_subtyping_exact in A, B by assumption. auto.
  - intros t OT [A B]. rewrite C52_tensor_subtyping_exact in A, B by assumption.
    assert (X : exists x, describes t x).
    { unfold sizes_ok in OT. assert (exists sh, match sizes t with None => True | Some s => Forall2 fits_size s sh end) as [sh F].
      { destruct (sizes t); [apply meet_none_inhabited, OT|exists []; exact I]. }
      exists {| by_value := value_semantics t; shape := sh; dtype_of := match elt t with Some d => d | None => StringD end; storage := None |}.
      repeat split; [exact F|cbn; destruct (elt t); auto]. }
    destruct X as [x X]. apply (M x). auto.
Qed.
Example C53_greatest_nonvacuous :
  let l := {| value_semantics := false; sizes := Some [2; -1]; elt := None; sparsity := None |} in
  sizes_ok l /\ (value_semantics l = true \/ sizes l <> None \/ sizes l <> None) /\ isValidSubtype (Tens l) (Tens l) = true.
Proof. repeat split; try reflexivity; [repeat constructor; unfold size_ok; lia|right; left; discriminate]. Qed.
(** C53: two non-value tensors without sizes combine to a value tensor, which describes neither. *)
Theorem C53_meet_changes_value_semantics_refuted l r : value_semantics l = false -> value_semantics r = false ->
  sizes l = None -> sizes r = None -> elt l = None \/ elt r = None ->
  exists m, meetTensorTypes l r = Some m /\ value_semantics m = true /\ forall x, describes m x -> ~ describes l x.
Proof.
  intros L R SL SR D. unfold meetTensorTypes. rewrite SL, SR.
  assert (E : (match elt l with Some a => match elt r with Some b => if dtype_eq_dec a b then Some tt else None | None => Some tt end | None => Some tt end) = Some tt)
    by (destruct D as [->| ->]; [reflexivity|destruct (elt l); reflexivity]).
  rewrite E. cbn [obind]. eexists. repeat split. intros x [A _] [B _]. cbn in A. congruence.
Qed.
(** C53: combination, and both changes of value semantics, forget how the tensor is stored. *)
Theorem C53_storage_forgotten_refuted l r m : meetTensorTypes l r = Some m -> sparsity m = None.
Proof.
  unfold meetTensorTypes. destruct (match elt l with Some _ => _ | None => _ end); cbn [obind]; [|discriminate].
  destruct (sizes l) as [s|], (sizes r) as [s'|]; cbn [or_else obind];
    try (destruct (guard _); cbn [obind]; [|discriminate]); try (destruct (meet_sizes _ _); cbn [obind]; [|discriminate]);
    intros [= <-]; reflexivity.
Qed.
Theorem C53_value_semantics_changes t :
  (forall x, describes (getWithValueSemantics t) x <-> by_value x = true /\ facts t x) /\
  (forall x, describes (getWithoutValueSemantics t) x <-> by_value x = false /\ facts t x) /\
  (value_semantics t = true -> getWithValueSemantics t = t) /\
  getWithValueSemantics (getWithoutValueSemantics t) = {| value_semantics := true; sizes := sizes t; elt := elt t; sparsity := None |} /\
  (sparsity (getWithoutValueSemantics t) = None).
Proof.
  unfold getWithValueSemantics, getWithoutValueSemantics. split; [|split; [|split; [|split]]]; try reflexivity.
  - intros x. rewrite describes_facts. destruct (value_semantics t) eqn:V; cbn; [rewrite V|]; unfold facts; cbn; tauto.
  - intros ->. reflexivity.
Qed.
Theorem C53_refining_sizes_and_dtype t s d x :
  describes (getWithSizesAndDtype t s d) x <->
  by_value x = value_semantics t /\ (forall l, s = Some l -> Forall2 fits_size l (shape x)) /\ (forall k, d = Some k -> k = dtype_of x).
Proof.
  unfold describes, getWithSizesAndDtype; cbn. destruct s, d; split; intros (A & B & C); repeat split; auto; intros; try congruence.
  all: match goal with H : Some _ = Some _ |- _ => injection H as <- end; auto.
Qed.

Print Assumptions C52_subtyping_decides_relation.
Print Assumptions C52_subtyping_transitive.
Print Assumptions C52_subtyping_sound.
Print Assumptions C52_tensor_subtyping_exact.
Print Assumptions C53_meet_is_greatest_lower_bound.
