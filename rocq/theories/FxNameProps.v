(** C20, C21: function names of sub-modules and the tensor type cache. *)
From Coq Require Import ZArith Lia Bool Ascii DecimalString DecimalNat DecimalFacts String Permutation List.
From Verif Require Import Prelude FxMiscModel FxMiscSpec.
Import ListNotations.
Open Scope string_scope.
Open Scope list_scope.
Open Scope Z_scope.

(** * Suffixes *)
Fixpoint after_underscore (s : string) : option string :=
  match s with
  | EmptyString => None
  | String c r => match after_underscore r with Some t => Some t | None => if Ascii.eqb c "_"%char then Some r else None end
  end.
Lemma digits_no_underscore u : after_underscore (NilZero.string_of_uint u) = None.
Proof.
  assert (E : forall u, after_underscore (NilEmpty.string_of_uint u) = None) by (induction u0; cbn; rewrite ?IHu0; reflexivity).
  destruct u; try reflexivity; apply E.
Qed.
Lemma after_append s d : after_underscore d = None -> after_underscore (String.append s (String "_" d)) = Some d.
Proof. intros N. induction s as [|c s IH]; cbn; [rewrite N; reflexivity|]. rewrite IH. reflexivity. Qed.
Lemma to_uint_nonnil k : Nat.to_uint k <> Decimal.Nil.
Proof. rewrite <- (Unsigned.of_to k), Unsigned.to_of. apply unorm_nonnil. Qed.
Lemma append_len s t : String.length (String.append s t) = (String.length s + String.length t)%nat.
Proof. induction s as [|c s IH]; cbn; [reflexivity|]. rewrite IH. reflexivity. Qed.
Lemma append_same s s' t : String.append s t = String.append s' t -> s = s'.
Proof.
  revert s'. induction s as [|c s IH]; intros [|c' s'] H; cbn in H; auto.
  - exfalso. apply (f_equal String.length) in H. cbn in H. rewrite append_len in H. lia.
  - exfalso. apply (f_equal String.length) in H. cbn in H. rewrite append_len in H. lia.
  - injection H as -> H. f_equal. auto.
Qed.
Lemma suffixed_inj s k s' k' : suffixed s k = suffixed s' k' -> s = s' /\ k = k'.
Proof.
  intros H. assert (K : k = k').
  { apply (f_equal after_underscore) in H. unfold suffixed in H. cbn [String.append] in H. rewrite !after_append in H by apply digits_no_underscore. injection H as H.
    apply (f_equal NilZero.uint_of_string) in H. rewrite !NilZero.usu in H by apply to_uint_nonnil. injection H as H. apply Unsigned.to_uint_inj. exact H. }
  split; [|exact K]. subst k'. unfold suffixed in H. apply append_same in H. exact H.
Qed.

(** * Trees *)
Fixpoint gm_induction (P : gm -> Prop) (step : forall i cs, Forall (fun p => P (snd p)) cs -> P (GM i cs)) (g : gm) {struct g} : P g :=
  match g with
  | GM i cs => step i cs ((fix go (l : list (string * gm)) : Forall (fun p => P (snd p)) l :=
      match l with [] => Forall_nil _ | p :: r => Forall_cons p (gm_induction P step (snd p)) (go r) end) cs)
  end.
Fixpoint import_children (seen : list Z) (l : list (string * gm)) (st : namer) : namer :=
  match l with
  | [] => st
  | (n, c) :: r => if existsb (Z.eqb (gm_id c)) seen then import_children seen r st else import_children (gm_id c :: seen) r (import_graph_module c n st)
  end.
Lemma import_unfold i cs f st : import_graph_module (GM i cs) f st =
  let '(final, st1) := assign_name st i f in
  let st2 := import_children [] cs st1 in {| names := names st2; counter := counter st2; funcs := funcs st2 ++ [final] |}.
Proof.
  cbn [import_graph_module]. destruct (assign_name st i f) as [final st1]. f_equal.
Qed.
Definition allot (st : namer) (p : Z * string) : namer := snd (assign_name st (fst p) (snd p)).
Definition name_of (l : list (Z * string)) (i : Z) : string := match assoc i l with Some n => n | None => EmptyString end.
Definition same_names (a b : namer) : Prop := names a = names b /\ counter a = counter b.
Lemma allot_same a b p : same_names a b -> same_names (allot a p) (allot b p).
Proof.
  intros [N C]. unfold allot, assign_name. rewrite N, C. destruct (assoc (fst p) (names b)); [split; assumption|].
  destruct (existsb _ (names b)); split; cbn; congruence.
Qed.
Lemma allot_all_same l : forall a b, same_names a b -> same_names (fold_left allot l a) (fold_left allot l b).
Proof. induction l as [|p l IH]; intros a b S1; [exact S1|]. cbn. apply IH, allot_same, S1. Qed.
Lemma allot_funcs l : forall a, funcs (fold_left allot l a) = funcs a.
Proof.
  induction l as [|p l IH]; intros a; [reflexivity|]. cbn. rewrite IH. unfold allot, assign_name. destruct (assoc (fst p) (names a)); [reflexivity|]. destruct (existsb _ (names a)); reflexivity.
Qed.
Lemma assign_keeps st i f j n : assoc j (names st) = Some n -> assoc j (names (snd (assign_name st i f))) = Some n.
Proof.
  intros H. unfold assign_name. destruct (assoc i (names st)) eqn:E; [exact H|]. assert (N : i =? j = false) by (apply Z.eqb_neq; congruence).
  destruct (existsb _ (names st)); cbn [snd names assoc]; rewrite N; exact H.
Qed.
Lemma assign_own st i f : assoc i (names (snd (assign_name st i f))) = Some (fst (assign_name st i f)).
Proof.
  unfold assign_name. destruct (assoc i (names st)) eqn:E; [exact E|]. destruct (existsb _ (names st)); cbn [fst snd names assoc]; rewrite Z.eqb_refl; reflexivity.
Qed.
Lemma allot_keeps l : forall st j n, assoc j (names st) = Some n -> assoc j (names (fold_left allot l st)) = Some n.
Proof. induction l as [|p l IH]; intros st j n H; [exact H|]. cbn. apply IH. apply assign_keeps. exact H. Qed.
Lemma allot_total l : forall st i f, In (i, f) l -> exists n, assoc i (names (fold_left allot l st)) = Some n.
Proof.
  induction l as [|p l IH]; intros st i f H; [destruct H|]. destruct H as [H|H]; [subst p|cbn; eapply IH; exact H]. cbn. eexists. apply allot_keeps. unfold allot. cbn [fst snd]. apply assign_own.
Qed.
(** What importing a tree does: names are allotted to the modules, parents first, and functions are made children first. *)
Definition faithful (g : gm) : Prop := forall f st, NoDup (ids g) ->
  let st' := import_graph_module g f st in
  same_names st' (fold_left allot (labelled g f) st) /\ funcs st' = funcs st ++ map (name_of (names st')) (postorder g).
Lemma in_labelled g : forall f i, In i (ids g) -> exists n, In (i, n) (labelled g f).
Proof.
  induction g as [i cs IH] using gm_induction. intros f j [<-|H]; [exists f; left; reflexivity|]. cbn [labelled].
  induction cs as [|[n c] cs IHc]; [destruct H|]. cbn [flat_map] in *. apply in_app_or in H as [H|H].
  - destruct (Forall_inv IH n j H) as [m M]. exists m. right. apply in_or_app. left. exact M.
  - destruct (IHc (Forall_inv_tail IH) H) as [m [M|M]]; exists m; [left; exact M|right; apply in_or_app; right; exact M].
Qed.
Lemma postorder_ids g : forall i, In i (postorder g) -> In i (ids g).
Proof.
  induction g as [i cs IH] using gm_induction. intros j H. cbn [postorder ids] in *. apply in_app_or in H as [H|[<-|[]]]; [right|left; reflexivity].
  apply in_flat_map in H as (p & P1 & P2). apply in_flat_map. exists p. split; [exact P1|]. rewrite Forall_forall in IH. apply (IH p P1 j P2).
Qed.
Lemma NoDup_app_inv {A} (l r : list A) : NoDup (l ++ r) -> NoDup l /\ NoDup r /\ forall x, In x l -> In x r -> False.
Proof.
  induction l as [|a l IH]; cbn; intros H; [repeat split; [constructor|exact H|intros x []]|]. inversion H as [|a' l' N ND]; subst. destruct (IH ND) as (L & R & D). repeat split.
  - constructor; [|exact L]. intros I. apply N. apply in_or_app. left. exact I.
  - exact R.
  - intros x [<-|X] Y; [apply N; apply in_or_app; right; exact Y|eauto].
Qed.
Lemma head_id g : In (gm_id g) (ids g). Proof. destruct g. left. reflexivity. Qed.
Lemma import_faithful g : faithful g.
Proof.
  induction g as [i cs IH] using gm_induction. intros f st ND st'. subst st'. rewrite import_unfold.
  destruct (assign_name st i f) as [final st1] eqn:A. cbn [ids] in ND. apply NoDup_cons_iff in ND as [_ ND].
  assert (G : forall l seen s, Forall (fun p => faithful (snd p)) l -> NoDup (flat_map (fun p => ids (snd p)) l) -> (forall x, In x seen -> In x (flat_map (fun p : string * gm => ids (snd p)) l) -> False) ->
    let s' := import_children seen l s in same_names s' (fold_left allot (flat_map (fun p => labelled (snd p) (fst p)) l) s) /\
    funcs s' = funcs s ++ map (name_of (names s')) (flat_map (fun p => postorder (snd p)) l)).
  { clear. induction l as [|[n c] l IH]; intros seen s F ND D s'; subst s'; [split; [split; reflexivity|cbn; rewrite app_nil_r; reflexivity]|].
    cbn [import_children flat_map fst snd] in *. replace (existsb (Z.eqb (gm_id c)) seen) with false.
    2:{ symmetry. destruct (existsb (Z.eqb (gm_id c)) seen) eqn:E; [|reflexivity]. apply existsb_exists in E as (x & X & Y). apply Z.eqb_eq in Y. subst x.
        exfalso. apply (D _ X). apply in_or_app. left. apply head_id. }
    apply NoDup_app_inv in ND as (N1 & N2 & N3). destruct (Forall_inv F n s N1) as [Q1 Q2]. cbn [snd] in Q1, Q2.
    specialize (IH (gm_id c :: seen) (import_graph_module c n s) (Forall_inv_tail F) N2). destruct IH as [R1 R2].
    { intros x [<-|X] Y; [apply (N3 _ (head_id c) Y)|apply (D x X); apply in_or_app; right; exact Y]. }
    assert (R3 : same_names (import_children (gm_id c :: seen) l (import_graph_module c n s)) (fold_left allot (labelled c n ++ flat_map (fun p => labelled (snd p) (fst p)) l) s)).
    { rewrite fold_left_app. destruct (allot_all_same (flat_map (fun p => labelled (snd p) (fst p)) l) _ _ Q1) as [X1 X2]. destruct R1 as [Y1 Y2]. split; congruence. }
    split; [exact R3|]. rewrite R2, Q2, map_app, <- app_assoc. f_equal. f_equal. apply map_ext_in. intros j J. unfold name_of.
    destruct R1 as [-> _]. destruct (in_labelled c n j (postorder_ids c j J)) as [m M]. destruct (allot_total _ s j m M) as [x X]. destruct Q1 as [Q1 _]. rewrite <- Q1 in X.
    rewrite X. rewrite (allot_keeps _ _ _ _ X). reflexivity. }
  destruct (G cs [] st1 IH ND) as [R1 R2]; [intros x []|]. cbn [names counter funcs labelled fold_left postorder].
  assert (E : allot st (i, f) = st1) by (unfold allot; cbn [fst snd]; rewrite A; reflexivity).
  assert (EF : funcs st1 = funcs st) by (rewrite <- E; exact (allot_funcs [(i, f)] st)).
  split; [rewrite E; exact R1|]. rewrite R2, EF, map_app, app_assoc. f_equal.
  - cbn [map]. f_equal. unfold name_of. destruct R1 as [-> _]. pose proof (assign_own st i f) as O. rewrite A in O. cbn [fst snd] in O. rewrite (allot_keeps _ _ _ _ O). reflexivity.
Qed.
(** C20: if no module occurs twice, functions are made children first, each under the name allotted to its module,
    and names are allotted parents first. *)
Theorem C20_functions_in_order g f st : NoDup (ids g) ->
  funcs (import_graph_module g f st) = funcs st ++ map (name_of (names (import_graph_module g f st))) (postorder g) /\
  names (import_graph_module g f st) = names (fold_left allot (labelled g f) st).
Proof. intros N. destruct (import_faithful g f st N) as [[S1 _] F]. auto. Qed.

(** Names in use are plain, or a plain name with a suffix below the counter. *)
Definition orderly (st : namer) : Prop :=
  NoDup (map snd (names st)) /\ forall n, In n (map snd (names st)) -> plain n \/ exists s k, n = suffixed s k /\ (k < counter st)%nat.
Lemma taken l n : existsb (fun p : Z * string => String.eqb (snd p) n) l = true <-> In n (map snd l).
Proof.
  rewrite existsb_exists, in_map_iff. split; intros (p & A & B); exists p; [apply String.eqb_eq in B; auto|split; [exact B|apply String.eqb_eq; exact A]].
Qed.
Lemma allot_orderly st p : plain (snd p) -> orderly st -> orderly (allot st p).
Proof.
  intros P [ND O]. unfold allot, assign_name. destruct (assoc (fst p) (names st)); [split; assumption|]. destruct (existsb _ (names st)) eqn:E.
  - split; cbn [names counter map snd].
    + constructor; [|exact ND]. intros I. destruct (O _ I) as [Q|(s & k & Q & L)]; [exact (Q _ _ eq_refl)|]. apply suffixed_inj in Q as [_ Q]. lia.
    + intros n [<-|I]; [right; exists (snd p), (counter st); split; [reflexivity|lia]|]. destruct (O n I) as [Q|(s & k & Q & L)]; [left; exact Q|right; exists s, k; split; [exact Q|lia]].
  - split; cbn [names counter map snd].
    + constructor; [|exact ND]. intros I. apply taken in I. congruence.
    + intros n [<-|I]; [left; exact P|]. destruct (O n I) as [Q|Q]; [left|right]; exact Q.
Qed.
Lemma allot_all_orderly l : forall st, Forall (fun p => plain (snd p)) l -> orderly st -> orderly (fold_left allot l st).
Proof. induction l as [|p l IH]; intros st F O; [exact O|]. cbn. apply IH; [exact (Forall_inv_tail F)|]. apply allot_orderly; [exact (Forall_inv F)|exact O]. Qed.
Lemma labelled_plain g : forall f, plain f -> Forall plain (requested g) -> Forall (fun p => plain (snd p)) (labelled g f).
Proof.
  induction g as [i cs IH] using gm_induction. intros f P R. cbn [labelled]. constructor; [exact P|]. cbn [requested] in R. apply Forall_flat_map in R. apply Forall_flat_map.
  rewrite Forall_forall in *. intros p I. specialize (R p I). apply (IH p I); [exact (Forall_inv R)|exact (Forall_inv_tail R)].
Qed.
Lemma labelled_ids g : forall f, map fst (labelled g f) = ids g.
Proof.
  induction g as [i cs IH] using gm_induction. intros f. cbn [labelled ids map fst]. f_equal. induction cs as [|p cs IHc]; [reflexivity|]. cbn [flat_map]. rewrite map_app, IHc by exact (Forall_inv_tail IH).
  f_equal. apply (Forall_inv IH).
Qed.
Lemma postorder_perm g : Permutation (postorder g) (ids g).
Proof.
  induction g as [i cs IH] using gm_induction. cbn [postorder ids]. rewrite <- Permutation_cons_append. constructor. induction cs as [|p cs IHc]; [constructor|]. cbn [flat_map].
  apply Permutation_app; [exact (Forall_inv IH)|apply IHc; exact (Forall_inv_tail IH)].
Qed.
Lemma assoc_In {A} i n (l : list (Z * A)) : assoc i l = Some n -> In (i, n) l.
Proof. induction l as [|[j m] l IH]; [discriminate|]. cbn. destruct (Z.eqb_spec j i) as [->|]; [intros [= ->]; left; reflexivity|right; auto]. Qed.
Lemma allot_keys l : forall st, NoDup (map fst l) -> (forall i, In i (map fst l) -> assoc i (names st) = None) ->
  map fst (names (fold_left allot l st)) = rev (map fst l) ++ map fst (names st).
Proof.
  induction l as [|[i f] l IH]; intros st N F; [reflexivity|]. cbn [fold_left map fst rev] in *. apply NoDup_cons_iff in N as [N1 N2].
  assert (K : map fst (names (allot st (i, f))) = i :: map fst (names st)).
  { unfold allot, assign_name. cbn [fst snd]. rewrite (F i (or_introl eq_refl)). destruct (existsb _ (names st)); reflexivity. }
  rewrite IH, K, <- app_assoc; [reflexivity|exact N2|]. intros j J. assert (D : i <> j) by congruence. apply Z.eqb_neq in D.
  unfold allot, assign_name. cbn [fst snd]. rewrite (F i (or_introl eq_refl)). destruct (existsb _ (names st)); cbn [snd names assoc]; rewrite D; apply F; right; exact J.
Qed.
Lemma assoc_keys {A} (l : list (Z * A)) i : In i (map fst l) -> exists n, assoc i l = Some n.
Proof. induction l as [|[j m] l IH]; [intros []|]. cbn. intros [->|H]; [rewrite Z.eqb_refl; eauto|]. destruct (j =? i); eauto. Qed.
(** C20: if no module occurs twice and no requested name looks like a suffixed one, no two functions have the same
    name, and the name under which a module is called is that of one function. *)
Theorem C20_function_names_distinct_partial g f : NoDup (ids g) -> plain f -> Forall plain (requested g) ->
  let st := import_graph_module g f namer0 in
  NoDup (funcs st) /\ length (funcs st) = length (ids g) /\
  forall i, In i (ids g) -> exists n, assoc i (names st) = Some n /\ In n (funcs st) /\ forall j, assoc j (names st) = Some n -> j = i.
Proof.
  intros N P R st. destruct (C20_functions_in_order g f namer0 N) as [F M]. fold st in F, M. cbn [namer0 funcs app] in F.
  assert (O : orderly (fold_left allot (labelled g f) namer0)).
  { apply allot_all_orderly; [apply labelled_plain; assumption|]. split; [constructor|intros n []]. }
  destruct O as [ND _]. rewrite <- M in ND.
  assert (T : forall i, In i (ids g) -> exists n, assoc i (names st) = Some n).
  { intros i I. rewrite M. destruct (in_labelled g f i I) as [m L]. apply (allot_total _ _ _ _ L). }
  assert (J : forall i j n, assoc i (names st) = Some n -> assoc j (names st) = Some n -> i = j).
  { intros i j n A B. apply assoc_In in A, B. clear - ND A B. induction (names st) as [|[k m] l IH]; [destruct A|]. cbn in ND. inversion ND as [|m' l' Q1 Q2]; subst.
    destruct A as [A|A], B as [B|B]; try congruence; [injection A as -> ->; exfalso; apply Q1; apply in_map_iff; exists (j, n); auto|injection B as -> ->; exfalso; apply Q1; apply in_map_iff; exists (i, n); auto|auto]. }
  split; [|split].
  - rewrite F. apply NoDup_map_inj; [|apply (Permutation_NoDup (Permutation_sym (postorder_perm g)) N)].
    intros x y X Y E. apply postorder_ids in X, Y. destruct (T x X) as [n A], (T y Y) as [m B]. unfold name_of in E. rewrite A, B in E. subst m. eauto.
  - rewrite F, map_length. apply Permutation_length, postorder_perm.
  - intros i I. destruct (T i I) as [n A]. exists n. split; [exact A|]. split; [|intros j B; eauto]. rewrite F. apply in_map_iff. exists i. split; [unfold name_of; rewrite A; reflexivity|].
    apply (Permutation_in _ (Permutation_sym (postorder_perm g)) I).
Qed.
(** C20: if the requested names are distinct too, every module gets the name requested for it. *)
Theorem C20_distinct_requests_kept g f : NoDup (ids g) -> NoDup (f :: requested g) -> names (import_graph_module g f namer0) = rev (labelled g f).
Proof.
  intros N R. destruct (C20_functions_in_order g f namer0 N) as [_ M]. rewrite M.
  assert (E : map snd (labelled g f) = f :: requested g).
  { clear. revert f. induction g as [i cs IH] using gm_induction. intros f. cbn [labelled requested map snd]. f_equal. induction cs as [|[n c] cs IHc]; [reflexivity|].
    cbn [flat_map fst snd]. rewrite map_app, IHc by exact (Forall_inv_tail IH). pose proof (Forall_inv IH n) as X. cbn [snd] in X. rewrite X. reflexivity. }
  rewrite <- E in R. clear E M. rewrite <- (labelled_ids g f) in N.
  assert (G : forall l st, NoDup (map fst l) -> NoDup (map snd l) -> (forall i, In i (map fst l) -> assoc i (names st) = None) -> (forall n, In n (map snd l) -> ~ In n (map snd (names st))) ->
    names (fold_left allot l st) = rev l ++ names st).
  { clear. induction l as [|[i f] l IH]; intros st N1 N2 A B; [reflexivity|]. cbn [fold_left rev map fst snd] in *. apply NoDup_cons_iff in N1 as [N1 N1'], N2 as [N2 N2'].
    assert (K : names (allot st (i, f)) = (i, f) :: names st).
    { unfold allot, assign_name. cbn [fst snd]. rewrite (A i (or_introl eq_refl)). destruct (existsb _ (names st)) eqn:X; [|reflexivity]. apply taken in X. exfalso. apply (B f (or_introl eq_refl) X). }
    rewrite IH; [rewrite K, <- app_assoc; reflexivity|assumption|assumption| |].
    - intros j J. rewrite K. cbn [assoc]. destruct (Z.eqb_spec i j); [congruence|]. apply A. right. exact J.
    - intros n I. rewrite K. cbn [map snd]. intros [->|X]; [contradiction|]. apply (B n (or_intror I) X). }
  rewrite G, app_nil_r; auto.
Qed.
(** C20: a second request for a name is given the name with the number of names changed so far. *)
Theorem C20_repeated_request st i f : assoc i (names st) = None -> In f (map snd (names st)) ->
  fst (assign_name st i f) = suffixed f (counter st) /\ counter (snd (assign_name st i f)) = S (counter st).
Proof. intros A B. unfold assign_name. rewrite A. apply taken in B. rewrite B. split; reflexivity. Qed.
(** C20: a module is given a name once. *)
Theorem C20_names_are_stable st i f j g n : assoc i (names st) = Some n -> fst (assign_name st i f) = n /\ assoc i (names (snd (assign_name st j g))) = Some n.
Proof. intros A. split; [unfold assign_name; rewrite A; reflexivity|apply assign_keeps; exact A]. Qed.
(** C20: a requested name that looks like a suffixed one can collide with it. *)
Theorem C20_suffix_collision_refuted : exists g, NoDup (ids g) /\ NoDup (map (fun p => name_of (names (import_graph_module g "root" namer0)) p) [1; 2]) /\
  ~ NoDup (funcs (import_graph_module g "root" namer0)).
Proof.
  exists (GM 0 [("a", GM 1 []); ("a_0", GM 2 []); ("b", GM 3 [("a", GM 4 [])])]). split; [repeat constructor; cbn; intuition discriminate|]. split.
  - vm_compute. repeat constructor; cbn; intuition discriminate.
  - vm_compute. intros H. inversion H as [|x l N1 H1]; subst. inversion H1 as [|x l N2 H2]; subst. apply N2. left. reflexivity.
Qed.
(** C20: a module shared by two parents is made into two functions of one name. *)
Theorem C20_shared_module_refuted : exists g f, NoDup (f :: requested g) /\ ~ NoDup (funcs (import_graph_module g f namer0)).
Proof.
  exists (GM 0 [("a", GM 1 [("c", GM 3 [])]); ("b", GM 2 [("d", GM 3 [])])]), "root". split; [repeat constructor; cbn; intuition discriminate|].
  vm_compute. intros H. inversion H as [|x l N1 H1]; subst. apply N1. right. left. reflexivity.
Qed.
(** C20: the name of the program itself is not reserved. *)
Theorem C20_program_name_refuted : exists children, NoDup (flat_map (fun p => ids (snd p)) children) /\ NoDup (map fst children) /\
  ~ NoDup (funcs (import_program children "main" namer0)).
Proof.
  exists [("main", GM 1 [])]. split; [repeat constructor; cbn; intuition discriminate|]. split; [repeat constructor; cbn; intuition discriminate|].
  vm_compute. intros H. inversion H as [|x l N1 H1]; subst. apply N1. left. reflexivity.
Qed.
(** C20: the program's function comes first, then those of its children. *)
Theorem C20_program_functions children f : NoDup (flat_map (fun p => ids (snd p)) children) ->
  let st := import_program children f namer0 in
  funcs st = f :: map (name_of (names st)) (flat_map (fun p => postorder (snd p)) children) /\
  names st = names (fold_left allot (flat_map (fun p => labelled (snd p) (fst p)) children) namer0).
Proof.
  intros N st.
  assert (E : st = import_children [] children {| names := []; counter := O; funcs := [f] |}) by reflexivity.
  assert (G : forall l seen s, NoDup (flat_map (fun p : string * gm => ids (snd p)) l) -> (forall x, In x seen -> In x (flat_map (fun p : string * gm => ids (snd p)) l) -> False) ->
    let s' := import_children seen l s in same_names s' (fold_left allot (flat_map (fun p => labelled (snd p) (fst p)) l) s) /\
    funcs s' = funcs s ++ map (name_of (names s')) (flat_map (fun p => postorder (snd p)) l)).
  { clear. induction l as [|[n c] l IH]; intros seen s ND D s'; subst s'; [split; [split; reflexivity|cbn; rewrite app_nil_r; reflexivity]|].
    cbn [import_children flat_map fst snd] in *. replace (existsb (Z.eqb (gm_id c)) seen) with false.
    2:{ symmetry. destruct (existsb (Z.eqb (gm_id c)) seen) eqn:E; [|reflexivity]. apply existsb_exists in E as (x & X & Y). apply Z.eqb_eq in Y. subst x.
        exfalso. apply (D _ X). apply in_or_app. left. apply head_id. }
    apply NoDup_app_inv in ND as (N1 & N2 & N3). destruct (import_faithful c n s N1) as [Q1 Q2].
    specialize (IH (gm_id c :: seen) (import_graph_module c n s) N2). destruct IH as [R1 R2].
    { intros x [<-|X] Y; [apply (N3 _ (head_id c) Y)|apply (D x X); apply in_or_app; right; exact Y]. }
    assert (R3 : same_names (import_children (gm_id c :: seen) l (import_graph_module c n s)) (fold_left allot (labelled c n ++ flat_map (fun p => labelled (snd p) (fst p)) l) s)).
    { rewrite fold_left_app. destruct (allot_all_same (flat_map (fun p => labelled (snd p) (fst p)) l) _ _ Q1) as [X1 X2]. destruct R1 as [Y1 Y2]. split; congruence. }
    split; [exact R3|]. rewrite R2, Q2, map_app, <- app_assoc. f_equal. f_equal. apply map_ext_in. intros j J. unfold name_of.
    destruct R1 as [-> _]. destruct (in_labelled c n j (postorder_ids c j J)) as [m M]. destruct (allot_total _ s j m M) as [x X]. destruct Q1 as [Q1 _]. rewrite <- Q1 in X.
    rewrite X. rewrite (allot_keeps _ _ _ _ X). reflexivity. }
  destruct (G children [] {| names := []; counter := O; funcs := [f] |} N) as [[R1 _] R2]; [intros x []|]. rewrite <- E in R1, R2. split; [exact R2|].
  rewrite R1. apply allot_all_same. split; reflexivity.
Qed.
Example C20_nonvacuous : let st := import_graph_module (GM 0 [("a", GM 1 [("a", GM 2 [])]); ("b", GM 3 [])]) "root" namer0 in
  funcs st = ["a_0"; "a"; "b"; "root"].
Proof. reflexivity. Qed.
Example C20_plain_names : Forall plain ["root"; "a"; "b"].
Proof.
  assert (G : forall n, after_underscore n = None -> plain n).
  { intros n H s k ->. unfold suffixed in H. cbn [String.append] in H. rewrite after_append in H by apply digits_no_underscore. discriminate. }
  repeat constructor; apply G; reflexivity.
Qed.

(** * C21 *)
Section C21.
  Context {D E : Type} (D_eqb : D -> D -> bool) (D_eqb_spec : forall a b, D_eqb a b = true <-> a = b) (encoding_of : Z -> option E).
  Lemma shape_eqb_eq a : forall b, shape_eqb a b = true <-> a = b.
  Proof.
    induction a as [|x a IH]; intros [|y b]; cbn; split; intros H; try discriminate; auto.
    - apply andb_prop in H as [P Q]. apply IH in Q. subst. f_equal. destruct x, y; cbn in P; try discriminate; apply Z.eqb_eq in P; congruence.
    - injection H as -> ->. rewrite (proj2 (IH b) eq_refl), andb_true_r. destruct y; cbn; apply Z.eqb_refl.
  Qed.
  Lemma key_eqb_eq (a b : @request D) : key_eqb D_eqb a b = true <-> a = b.
  Proof.
    destruct a as [s d v m], b as [s' d' v' m']. unfold key_eqb. cbn [r_shape r_dtype r_val r_mutable]. rewrite !andb_true_iff, shape_eqb_eq, D_eqb_spec, Bool.eqb_true_iff.
    destruct v as [v|], v' as [v'|]; try rewrite Z.eqb_eq; split; intros H; repeat match goal with H : _ /\ _ |- _ => destruct H end; subst; try discriminate; try injection H as -> -> -> ->; auto; try (injection H as -> -> ->; auto).
  Qed.
  Definition run_requests (rs : list (@request D)) : list (@request D * @vtensor D E) :=
    fold_left (fun c r => snd (tensor_metadata_to_type D_eqb encoding_of c r)) rs [].
  Lemma cache_sound rs : Forall (fun p => snd p = get_vtensor_type encoding_of (fst p)) (run_requests rs).
  Proof.
    unfold run_requests. assert (G : forall c, Forall (fun p => snd p = get_vtensor_type encoding_of (fst p)) c -> Forall (fun p => snd p = get_vtensor_type encoding_of (fst p)) (fold_left (fun c r => snd (tensor_metadata_to_type D_eqb encoding_of c r)) rs c)).
    { induction rs as [|r rs IH]; intros c H; [exact H|]. cbn [fold_left]. apply IH. unfold tensor_metadata_to_type. destruct (find _ c) as [[]|]; [exact H|]. constructor; [reflexivity|exact H]. }
    apply G. constructor.
  Qed.
  (** C21: whatever was asked before, the type returned is the one described by the request. *)
  Theorem C21_cached_type_is_described rs r : describes encoding_of r (fst (tensor_metadata_to_type D_eqb encoding_of (run_requests rs) r)).
  Proof.
    assert (E1 : fst (tensor_metadata_to_type D_eqb encoding_of (run_requests rs) r) = get_vtensor_type encoding_of r).
    { unfold tensor_metadata_to_type. destruct (find _ (run_requests rs)) as [[k t]|] eqn:F; [|reflexivity]. cbn [fst]. apply find_some in F as [I K]. cbn [fst] in K. apply key_eqb_eq in K. subst k.
      pose proof (cache_sound rs) as S1. rewrite Forall_forall in S1. apply (S1 _ I). }
    rewrite E1. unfold describes, get_vtensor_type. cbn. repeat split.
    - unfold format_asm_shape. induction (r_shape r) as [|[n|z] s IH]; constructor; auto.
    - destruct (r_val r); reflexivity.
  Qed.
  (** C21: so a request is given the same type whenever it is made, and two requests the same type only if they describe it. *)
  Lemma describes_unique (r : @request D) (t u : @vtensor D E) : describes encoding_of r t -> describes encoding_of r u -> t = u.
  Proof.
    destruct t as [m s d e], u as [m' s' d' e']. intros (A1 & A2 & A3 & A4) (B1 & B2 & B3 & B4). cbn in *. assert (s = s').
    { clear - A3 B3. revert s' B3. induction A3 as [|x o l s X _ IH]; intros s' B; inversion B; subst; [reflexivity|]. f_equal; [destruct x; congruence|auto]. }
    destruct (r_val r); congruence.
  Qed.
  Theorem C21_order_of_requests_irrelevant rs rs' r : fst (tensor_metadata_to_type D_eqb encoding_of (run_requests rs) r) = fst (tensor_metadata_to_type D_eqb encoding_of (run_requests rs') r).
  Proof. apply (describes_unique r); apply C21_cached_type_is_described. Qed.
  Theorem C21_same_type_iff_same_description rs r r' :
    fst (tensor_metadata_to_type D_eqb encoding_of (run_requests rs) r) = fst (tensor_metadata_to_type D_eqb encoding_of (run_requests rs) r') <-> exists t, describes encoding_of r t /\ describes encoding_of r' t.
  Proof.
    pose proof (C21_cached_type_is_described rs r) as A. pose proof (C21_cached_type_is_described rs r') as B. split.
    - intros E1. eexists. split; [exact A|]. rewrite E1. exact B.
    - intros (t & A' & B'). rewrite (describes_unique r _ _ A A'), (describes_unique r' _ _ B B'). reflexivity.
  Qed.
  (** C21: a repeated request adds nothing to the cache. *)
  Theorem C21_repeated_request_is_found rs r : snd (tensor_metadata_to_type D_eqb encoding_of (run_requests (rs ++ [r])) r) = run_requests (rs ++ [r]).
  Proof.
    unfold run_requests. rewrite fold_left_app. cbn [fold_left]. fold (run_requests rs). generalize (run_requests rs). intros c.
    unfold tensor_metadata_to_type. destruct (find (fun p => key_eqb D_eqb (fst p) r) c) as [[k t]|] eqn:F; cbn [snd].
    - rewrite F. reflexivity.
    - cbn [find fst]. rewrite (proj2 (key_eqb_eq r r) eq_refl). reflexivity.
  Qed.
End C21.
Example C21_nonvacuous : fst (tensor_metadata_to_type (E:=Z) Z.eqb (fun _ => Some 9) (run_requests Z.eqb (fun _ => Some 9) [{| r_shape := [Known 3; Symbolic 4]; r_dtype := 6; r_val := None; r_mutable := false |}])
   {| r_shape := [Known 3; Symbolic 4]; r_dtype := 6; r_val := Some 8; r_mutable := false |}) = {| v_mutable := false; v_shape := [Some 3; None]; v_dtype := 6; v_encoding := Some 9 |}.
Proof. reflexivity. Qed.

Print Assumptions C20_function_names_distinct_partial.
Print Assumptions C20_distinct_requests_kept.
Print Assumptions C21_cached_type_is_described.
