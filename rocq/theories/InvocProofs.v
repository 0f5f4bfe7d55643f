(** Lemmas about invocations. *)
From Coq Require Import ZArith Bool Lia List.
From Verif Require Import Prelude InvocModel InvocSpec.
Import ListNotations.
Open Scope list_scope.
Open Scope nat_scope.

Section Trees.
Context {S T O : Type} (P : arg S T O -> Prop) (HS : forall s, P (AScalar s)) (HT : forall t, P (ATensor t))
  (HL : forall l, Forall P l -> P (AList l)) (HU : forall l, Forall P l -> P (ATuple l)) (HO : forall o, P (AOther o)).
Fixpoint arg_tree (a : arg S T O) : P a :=
  let all := fix all (l : list (arg S T O)) : Forall P l := match l with [] => Forall_nil P | x :: r => Forall_cons x (arg_tree x) (all r) end in
  match a with AScalar s => HS s | ATensor t => HT t | AList l => HL l (all l) | ATuple l => HU l (all l) | AOther o => HO o end.
End Trees.

Lemma transform_list {S T O X} (f : T -> arg S X O) l :
  recursively_transform f (AList l) = (do ys <- mapM (recursively_transform f) l; Some (AList ys)).
Proof.
  cbn [recursively_transform]. f_equal. induction l as [|x r IH]; [reflexivity|]. cbn [mapM]. destruct (recursively_transform f x); [|reflexivity]. cbn [obind]. now rewrite IH.
Qed.
Lemma transform_tuple {S T O X} (f : T -> arg S X O) l :
  recursively_transform f (ATuple l) = (do ys <- mapM (recursively_transform f) l; Some (ATuple ys)).
Proof.
  cbn [recursively_transform]. f_equal. induction l as [|x r IH]; [reflexivity|]. cbn [mapM]. destruct (recursively_transform f x); [|reflexivity]. cbn [obind]. now rewrite IH.
Qed.
Lemma mapM_iff {A B} (f : A -> option B) (R : A -> B -> Prop) l : Forall (fun x => forall y, f x = Some y <-> R x y) l -> forall m, mapM f l = Some m <-> Forall2 R l m.
Proof.
  induction 1 as [|x r H F IH]; intros m.
  - cbn. split; [intros E; injection E as <-; constructor|intros K; inversion K; reflexivity].
  - cbn [mapM]. split.
    + destruct (f x) as [y|] eqn:E; [|discriminate]. destruct (mapM f r) as [ys|] eqn:E2; [|discriminate]. cbn [obind]. intros K. injection K as <-. constructor; [now apply H|now apply IH].
    + intros K. inversion K as [|? y ? ys R1 R2]; subst. apply H in R1. apply IH in R2. now rewrite R1, R2.
Qed.
Lemma transform_iff {S T O X} (f : T -> arg S X O) a : forall b, recursively_transform f a = Some b <-> corresponds (fun t x => x = f t) a b.
Proof.
  induction a as [s|t|l IH|l IH|o] using arg_tree; intros b.
  - cbn. split; [intros E; injection E as <-; constructor|intros K; inversion K; reflexivity].
  - cbn. split; [intros E; injection E as <-; now constructor|intros K; inversion K; congruence].
  - rewrite transform_list. pose proof (mapM_iff _ _ _ IH) as M. split.
    + destruct (mapM _ l) as [ys|] eqn:E; [|discriminate]. cbn [obind]. intros K. injection K as <-. constructor. now apply M.
    + intros K. inversion K as [| |? m F|]; subst. apply M in F. now rewrite F.
  - rewrite transform_tuple. pose proof (mapM_iff _ _ _ IH) as M. split.
    + destruct (mapM _ l) as [ys|] eqn:E; [|discriminate]. cbn [obind]. intros K. injection K as <-. constructor. now apply M.
    + intros K. inversion K as [| | |? m F]; subst. apply M in F. now rewrite F.
  - cbn. split; [discriminate|intros K; inversion K].
Qed.
Lemma mapM_none {A B} (f : A -> option B) l : mapM f l = None <-> exists x, In x l /\ f x = None.
Proof.
  induction l as [|x r IH]; [split; [discriminate|intros (x & [] & _)]|]. cbn [mapM]. destruct (f x) as [y|] eqn:E; cbn [obind].
  - destruct (mapM f r); cbn [obind].
    + split; [discriminate|]. intros (z & [<-|I'] & N); [congruence|]. assert (X : @None (list B) = None) by reflexivity. destruct IH as [_ IH]. discriminate IH. eauto.
    + split; [|reflexivity]. intros _. destruct IH as [IH _]. destruct (IH eq_refl) as (z & I' & N). exists z. split; [now right|exact N].
  - split; [|reflexivity]. intros _. exists x. split; [now left|exact E].
Qed.
Lemma transform_none {S T O X} (f : T -> arg S X O) a : recursively_transform f a = None <-> has_other a.
Proof.
  induction a as [s|t|l IH|l IH|o] using arg_tree.
  - cbn. split; [discriminate|intros K; inversion K].
  - cbn. split; [discriminate|intros K; inversion K].
  - rewrite transform_list, Forall_forall in *. transitivity (mapM (recursively_transform f) l = None); [destruct (mapM _ l); cbn; split; congruence|]. rewrite mapM_none. split.
    + intros (x & I' & N). apply (other_list l x I'). now apply IH.
    + intros K. inversion K as [|? x I' N|]; subst. exists x. split; [exact I'|]. now apply IH.
  - rewrite transform_tuple, Forall_forall in *. transitivity (mapM (recursively_transform f) l = None); [destruct (mapM _ l); cbn; split; congruence|]. rewrite mapM_none. split.
    + intros (x & I' & N). apply (other_tuple l x I'). now apply IH.
    + intros K. inversion K as [| |? x I' N]; subst. exists x. split; [exact I'|]. now apply IH.
  - cbn. split; [constructor|reflexivity].
Qed.

(** ** Generators *)
Lemma mem_iff d s : mem d s = true <-> In d s.
Proof. unfold mem. destruct (in_dec dtype_eq_dec d s); split; congruence || tauto. Qed.
Lemma mem_set_iff d s : mem_set d s = true <-> exists l, s = Some l /\ In d l.
Proof. destruct s as [l|]; cbn [mem_set]; [rewrite mem_iff; split; [eauto|intros (m & E & K); injection E as ->; exact K]|split; [discriminate|intros (m & E & _); discriminate]]. Qed.
Lemma listed_iff d : In d sorted_torch_types <-> listed d.
Proof. unfold listed. destruct d; cbn; split; intros H; try lia; try tauto. repeat (destruct H as [H|H]; [discriminate|]). destruct H. Qed.
Lemma mapM_some {A B} (f : A -> B) l : mapM (fun x => Some (f x)) l = Some (map f l).
Proof. induction l as [|x r IH]; [reflexivity|]. cbn [mapM obind map]. now rewrite IH. Qed.
Fixpoint descending (l : list dtype) : Prop := match l with [] => True | x :: r => Forall (fun y => priority y < priority x) r /\ descending r end.
Lemma sorted_descending : descending sorted_torch_types.
Proof. cbn. repeat (split; [repeat constructor; lia|]). exact Logic.I. Qed.
(** The constant type and the types from it on *)
Lemma constant_is errors l c r : descending l -> constant_type errors l = Some (c, r) ->
  In c l /\ ~ In c errors /\ (forall d, In d l -> priority c < priority d -> In d errors) /\ (forall d, In d r <-> In d l /\ priority d <= priority c).
Proof.
  intros D. induction l as [|x l IH]; [discriminate|]. destruct D as [D1 D2]. rewrite Forall_forall in D1. cbn [constant_type]. destruct (mem x errors) eqn:M; cbn [negb].
  - intros E. destruct (IH D2 E) as (I1 & N & U & R). split; [now right|]. split; [exact N|]. split.
    + intros d [<-|K] L; [now apply mem_iff|auto].
    + intros d. rewrite R. split; [intros [K L]; split; [now right|exact L]|]. intros [[<-|K] L]; [specialize (D1 c I1); lia|now split].
  - intros E. injection E as <- <-. split; [now left|]. split; [intros K; apply mem_iff in K; congruence|]. split.
    + intros d [<-|K] L; [lia|specialize (D1 d K); lia].
    + intros d. split; [intros [<-|K]; [split; [now left|lia]|split; [now right|specialize (D1 d K); lia]]|tauto].
Qed.
Lemma constant_none errors l : constant_type errors l = None <-> incl l errors.
Proof.
  induction l as [|x l IH]; [split; [intros _ d []|reflexivity]|]. cbn [constant_type]. destruct (mem x errors) eqn:M; cbn [negb].
  - rewrite IH. apply mem_iff in M. split; [intros K d [<-|J]; auto|intros K d J; apply K; now right].
  - split; [discriminate|]. intros K. assert (J : In x errors) by (apply K; now left). apply mem_iff in J. congruence.
Qed.
