(** C17-C21: identity tracking, type dispatch, sparse encodings, function names and the tensor type cache. *)
From Coq Require Import ZArith Lia Bool Ascii DecimalString DecimalNat String Permutation List.
From Verif Require Import Prelude FxMiscModel FxMiscSpec.
Import ListNotations.
Open Scope string_scope.
Open Scope list_scope.
Open Scope Z_scope.

(** * C17 *)
Lemma assoc_remove {A} k (l : list (Z * A)) a : assoc a (remove k l) = if k =? a then None else assoc a l.
Proof.
  induction l as [|[x v] l IH]; cbn; [destruct (k =? a); reflexivity|]. destruct (Z.eqb_spec x k) as [->|N].
  - rewrite IH. destruct (k =? a); reflexivity.
  - cbn. rewrite IH. destruct (Z.eqb_spec x a), (Z.eqb_spec k a); congruence.
Qed.
Lemma track_history es : forall h h', run_events h es = Some h' -> forall a,
  assoc a (live h') = object_at (next h) (assoc a (live h)) es a /\
  assoc a (refs h') = match assoc a (refs h) with Some o => Some o | None => first_tracked (next h) (assoc a (live h)) es a end.
Proof.
  induction es as [|e es IH]; intros h h' R a.
  - injection R as <-. cbn. split; [reflexivity|]. destruct (assoc a (refs h)); reflexivity.
  - cbn [run_events] in R. destruct (step h e) as [h1|] eqn:S1; cbn [obind] in R; [|discriminate]. destruct (IH h1 h' R a) as [L T]. clear IH R. rewrite L, T. clear L T.
    destruct e as [b|b|b]; cbn [step] in S1.
    + destruct (assoc b (live h)) eqn:F; [discriminate|]. injection S1 as <-. cbn [next live refs assoc object_at first_tracked]. destruct (b =? a); auto.
    + destruct (assoc b (live h)) eqn:F; [|discriminate]. injection S1 as <-. cbn [next live refs object_at first_tracked]. rewrite assoc_remove. auto.
    + unfold track in S1. destruct (assoc b (live h)) as [o|] eqn:F; [|discriminate]. cbn [obind] in S1.
      destruct (assoc b (refs h)) as [m|] eqn:G; injection S1 as <-; cbn [next live refs assoc object_at first_tracked]; (split; [reflexivity|]).
      * destruct (Z.eqb_spec b a) as [->|N]; [rewrite G; reflexivity|reflexivity].
      * destruct (Z.eqb_spec b a) as [->|N]; [rewrite G, F; reflexivity|reflexivity].
Qed.
(** C17: in every history, tracking gives the mapping of the object that was first tracked at that address. *)
Theorem C17_tracking_exactly es h a : run_events heap0 es = Some h ->
  option_map fst (track h a) =
  match object_at 0 None es a with
  | None => None
  | Some o => Some (match first_tracked 0 None es a with Some m => m | None => o end)
  end.
Proof.
  intros R. destruct (track_history es heap0 h R a) as [L T]. cbn in L, T. unfold track. rewrite L, T.
  destruct (object_at 0 None es a); [|reflexivity]. cbn [obind]. destruct (first_tracked 0 None es a); reflexivity.
Qed.
Lemma survive_weaken es : forall t u, (forall a, In a u -> In a t) -> tracked_survive t es -> tracked_survive u es.
Proof.
  induction es as [|[b|b|b] es IH]; intros t u I S1; cbn in *; auto; [|destruct S1 as [N S1]; split; [auto|]|]; try (eapply IH; [|exact S1]); auto.
  intros a [->|J]; [left; reflexivity|right; auto].
Qed.
Lemma survivors es : forall h h' t, run_events h es = Some h' -> tracked_survive t es ->
  (forall a o, assoc a (refs h) = Some o -> In a t /\ assoc a (live h) = Some o) ->
  forall a o, assoc a (refs h') = Some o -> assoc a (live h') = Some o.
Proof.
  induction es as [|e es IH]; intros h h' t R S1 I a o F; [injection R as <-; apply I; exact F|].
  cbn [run_events] in R. destruct (step h e) as [h1|] eqn:E; cbn [obind] in R; [|discriminate]. destruct e as [b|b|b]; cbn [step] in E; cbn [tracked_survive] in S1.
  - destruct (assoc b (live h)) eqn:Q; [discriminate|]. injection E as <-. apply (IH _ h' t R S1); [|exact F]. cbn [refs live assoc]. intros a' o' F'.
    destruct (I a' o' F') as [J K]. split; [exact J|]. destruct (Z.eqb_spec b a'); [congruence|exact K].
  - destruct (assoc b (live h)) eqn:Q; [|discriminate]. injection E as <-. destruct S1 as [N S1]. apply (IH _ h' t R S1); [|exact F]. cbn [refs live]. intros a' o' F'.
    destruct (I a' o' F') as [J K]. split; [exact J|]. rewrite assoc_remove. destruct (Z.eqb_spec b a'); [subst; contradiction|exact K].
  - unfold track in E. destruct (assoc b (live h)) as [x|] eqn:Q; [|discriminate]. cbn [obind] in E. apply (IH h1 h' (b :: t) R S1); [|exact F].
    destruct (assoc b (refs h)) as [m|] eqn:G; injection E as <-; cbn [refs live assoc]; intros a' o' F'.
    + destruct (I a' o' F'). split; [right|]; assumption.
    + destruct (Z.eqb_spec b a') as [->|N]; [injection F' as <-; split; [left; reflexivity|exact Q]|]. destruct (I a' o' F'). split; [right|]; assumption.
Qed.
(** C17: as long as no tracked object is freed, tracking an object gives its own mapping. *)
Theorem C17_tracking_is_identity_partial es h a o : run_events heap0 es = Some h -> tracked_survive [] es -> object_at 0 None es a = Some o ->
  exists h', track h a = Some (o, h').
Proof.
  intros R S1 O. destruct (track_history es heap0 h R a) as [L _]. cbn in L. rewrite O in L.
  unfold track. rewrite L. cbn [obind]. destruct (assoc a (refs h)) as [m|] eqn:F; [|eauto].
  rewrite (survivors es heap0 h [] R S1) with (a := a) (o := m) in L; [injection L as ->; eauto|discriminate|exact F].
Qed.
(** C17: two addresses share a mapping only if they hold the same object, which then is one address. *)
Lemma object_bound es : forall n cur a o, object_at n cur es a = Some o -> (cur = Some o \/ (n <= o)%nat).
Proof.
  induction es as [|[b|b|b] es IH]; intros n cur a o H; cbn in H; auto.
  - apply IH in H as [H|H]; [|right; lia]. destruct (b =? a); [injection H as <-; right; lia|auto].
  - apply IH in H as [H|H]; [|right; lia]. destruct (b =? a); [discriminate|auto].
  - apply IH in H. exact H.
Qed.
Lemma object_distinct es : forall n cura curb a b o, a <> b -> (forall x, cura = Some x -> curb = Some x -> False) ->
  (forall x, cura = Some x -> (x < n)%nat) -> (forall x, curb = Some x -> (x < n)%nat) ->
  object_at n cura es a = Some o -> object_at n curb es b = Some o -> False.
Proof.
  induction es as [|[c|c|c] es IH]; intros n cura curb a b o N D A B Ha Hb; cbn in Ha, Hb; [eauto| | |eauto].
  - eapply (IH (S n)); [exact N| | | |exact Ha|exact Hb].
    + destruct (Z.eqb_spec c a) as [Ea|], (Z.eqb_spec c b) as [Eb|]; intros x X Y; [congruence|injection X as <-; apply B in Y; lia|injection Y as <-; apply A in X; lia|eauto].
    + intros x X. destruct (c =? a); [injection X as <-; lia|apply A in X; lia].
    + intros x X. destruct (c =? b); [injection X as <-; lia|apply B in X; lia].
  - eapply (IH n); [exact N| | | |exact Ha|exact Hb].
    + intros x X Y. destruct (c =? a); [discriminate|]. destruct (c =? b); [discriminate|]. eauto.
    + intros x X. destruct (c =? a); [discriminate|]. auto.
    + intros x X. destruct (c =? b); [discriminate|]. auto.
Qed.
Theorem C17_distinct_objects_distinct_mappings_partial es h a b m h1 h2 : run_events heap0 es = Some h -> tracked_survive [] es -> a <> b ->
  track h a = Some (m, h1) -> track h b = Some (m, h2) -> False.
Proof.
  intros R S1 N A B.
  assert (X : forall c hc, track h c = Some (m, hc) -> object_at 0 None es c = Some m).
  { intros c hc T. destruct (object_at 0 None es c) as [o|] eqn:O.
    - destruct (C17_tracking_is_identity_partial es h c o R S1 O) as [h' E]. congruence.
    - pose proof (C17_tracking_exactly es h c R) as E. rewrite O, T in E. discriminate. }
  eapply (object_distinct es 0 None None a b m N); try discriminate; eauto.
Qed.
(** C17: tracking twice gives the same mapping, whatever is tracked or allocated in between. *)
Theorem C17_tracking_is_stable h a m h1 es h2 : track h a = Some (m, h1) -> run_events h1 es = Some h2 ->
  forall m' h3, track h2 a = Some (m', h3) -> m' = m.
Proof.
  intros T R m' h3 T'. destruct (track_history es h1 h2 R a) as [_ F].
  assert (G : assoc a (refs h1) = Some m).
  { unfold track in T. destruct (assoc a (live h)) as [o|]; [|discriminate]. cbn [obind] in T. destruct (assoc a (refs h)) as [x|] eqn:E; injection T as <- <-; [exact E|].
    cbn [refs assoc]. rewrite Z.eqb_refl. reflexivity. }
  rewrite G in F. unfold track in T'. destruct (assoc a (live h2)); [|discriminate]. cbn [obind] in T'. rewrite F in T'. injection T' as <- _. reflexivity.
Qed.
(** C17: once a tracked object is freed, another one at the same address is given its mapping. *)
Theorem C17_reused_address_refuted : exists es h a o m h',
  run_events heap0 es = Some h /\ object_at 0 None es a = Some o /\ track h a = Some (m, h') /\ m <> o.
Proof. exists [Alloc 7; Track 7; Free 7; Alloc 7]. eexists. exists 7. do 3 eexists. split; [reflexivity|]. split; [reflexivity|]. split; [reflexivity|]. discriminate. Qed.
Example C17_nonvacuous : exists h, run_events heap0 [Alloc 7; Alloc 8; Track 7; Free 8; Alloc 8; Track 8; Track 7] = Some h /\
  tracked_survive [] [Alloc 7; Alloc 8; Track 7; Free 8; Alloc 8; Track 8; Track 7] /\ option_map fst (track h 8) = Some 2%nat.
Proof. eexists. split; [reflexivity|]. cbn. intuition discriminate. Qed.

(** * C18 *)
Section C18.
  Context {C V : Type} (C_eqb : C -> C -> bool) (C_eqb_spec : forall a b, C_eqb a b = true <-> a = b) (issubclass : C -> C -> bool).
  Notation lookup := (sm_lookup C_eqb issubclass).
  Notation ev := (@sm_event C V).
  Let after (es : list ev) := fold_left (sm_step C_eqb issubclass) es map0.
  Lemma C_refl t : C_eqb t t = true. Proof. apply C_eqb_spec. reflexivity. Qed.
  Lemma C_neq a b : a <> b -> C_eqb a b = false.
  Proof. intros N. destruct (C_eqb a b) eqn:E; [|reflexivity]. apply C_eqb_spec in E. contradiction. Qed.
  Lemma exact_snoc (es : list ev) e t : exact C_eqb (es ++ [e]) t = match e with MapTo u v => if C_eqb u t then Some v else exact C_eqb es t | Lookup _ => exact C_eqb es t end.
  Proof.
    induction es as [|e' es IH]; cbn [app exact].
    - destruct e as [u v|u]; [destruct (C_eqb u t); reflexivity|reflexivity].
    - destruct e' as [u' v'|u']; rewrite IH; [|reflexivity]. destruct e as [u v|u]; [destruct (C_eqb u t); reflexivity|reflexivity].
  Qed.
  Lemma inherited_snoc (es : list ev) e t : inherited issubclass (es ++ [e]) t =
    match inherited issubclass es t with Some v => Some v | None => match e with MapTo u v => if issubclass t u then Some v else None | Lookup _ => None end end.
  Proof.
    induction es as [|e' es IH]; cbn [app inherited].
    - destruct e as [u v|u]; [destruct (issubclass t u); reflexivity|reflexivity].
    - destruct e' as [u' v'|u']; rewrite IH; [|reflexivity]. destruct (issubclass t u'); reflexivity.
  Qed.
  Lemma before_snoc (es : list ev) e t : before_lookup C_eqb (es ++ [e]) t =
    match before_lookup C_eqb es t with Some p => Some p | None => match e with Lookup u => if C_eqb u t then Some es else None | MapTo _ _ => None end end.
  Proof.
    induction es as [|e' es IH]; cbn [app before_lookup].
    - destruct e as [u v|u]; [reflexivity|]. destruct (C_eqb u t); reflexivity.
    - destruct e' as [u' v'|u']; rewrite IH.
      + destruct (before_lookup C_eqb es t); [reflexivity|]. destruct e as [u v|u]; [reflexivity|]. destruct (C_eqb u t); reflexivity.
      + destruct (C_eqb u' t); [reflexivity|]. destruct (before_lookup C_eqb es t); [reflexivity|]. destruct e as [u v|u]; [reflexivity|]. destruct (C_eqb u t); reflexivity.
  Qed.
  Lemma cache_get_cons u r (l : list (C * option V)) t : cache_get C_eqb ((u, r) :: l) t = if C_eqb u t then Some r else cache_get C_eqb l t.
  Proof. unfold cache_get. cbn [find fst]. destruct (C_eqb u t); reflexivity. Qed.
  (** What the two tables hold after a history. *)
  Lemma tables es : (forall t, option_map snd (find (fun p => issubclass t (fst p)) (mapping (after es))) = inherited issubclass es t) /\
    forall t, cache_get C_eqb (cache (after es)) t =
      match exact C_eqb es t with Some v => Some (Some v) | None => option_map (fun p => inherited issubclass p t) (before_lookup C_eqb es t) end.
  Proof.
    induction es as [|e es [IM IC]] using rev_ind; [split; reflexivity|]. unfold after. rewrite fold_left_app. cbn [fold_left].
    fold (after es). split; intros t.
    - rewrite inherited_snoc, <- IM. destruct e as [u v|u]; cbn [sm_step sm_map mapping].
      + generalize (mapping (after es)). intros l. induction l as [|[w x] l IH]; cbn [app find fst]; [destruct (issubclass t u); reflexivity|]. destruct (issubclass t w); [reflexivity|exact IH].
      + unfold sm_lookup. destruct (cache_get C_eqb (cache (after es)) u); cbn [snd].
        * destruct (option_map snd (find (fun p : C * V => issubclass t (fst p)) (mapping (after es)))); reflexivity.
        * destruct (find (fun p => issubclass u (fst p)) (mapping (after es))) as [[w x]|]; cbn [snd mapping];
            destruct (option_map snd (find (fun p : C * V => issubclass t (fst p)) (mapping (after es)))); reflexivity.
    - rewrite exact_snoc, before_snoc. destruct e as [u v|u]; cbn [sm_step sm_map cache].
      + rewrite cache_get_cons, IC. destruct (C_eqb u t); [reflexivity|]. destruct (exact C_eqb es t); [reflexivity|]. destruct (before_lookup C_eqb es t); reflexivity.
      + unfold sm_lookup. destruct (cache_get C_eqb (cache (after es)) u) as [r|] eqn:G; cbn [snd].
        * rewrite IC. destruct (exact C_eqb es t) eqn:X; [reflexivity|]. destruct (before_lookup C_eqb es t) eqn:B; [reflexivity|]. cbn [option_map].
          destruct (C_eqb u t) eqn:U; [|reflexivity]. apply C_eqb_spec in U. subst u. rewrite IC, X, B in G. discriminate.
        * assert (K : cache_get C_eqb ((u, inherited issubclass es u) :: cache (after es)) t =
             match exact C_eqb es t with Some v => Some (Some v) | None => option_map (fun p => inherited issubclass p t)
               match before_lookup C_eqb es t with Some p => Some p | None => if C_eqb u t then Some es else None end end).
          { rewrite cache_get_cons. destruct (C_eqb u t) eqn:U.
            - apply C_eqb_spec in U. subst u. rewrite IC in G. destruct (exact C_eqb es t); [discriminate|]. destruct (before_lookup C_eqb es t); [discriminate|]. reflexivity.
            - rewrite IC. destruct (exact C_eqb es t); [reflexivity|]. destruct (before_lookup C_eqb es t); reflexivity. }
          rewrite <- K, <- IM. destruct (find (fun p => issubclass u (fst p)) (mapping (after es))) as [[w x]|]; reflexivity.
  Qed.
  (** C18: after every history a lookup gives the last handler registered for exactly the type, or else the first
      registered for a base of it among those registered before the type was first looked up. *)
  Theorem C18_lookup_exactly (es : list ev) t : fst (lookup (fold_left (sm_step C_eqb issubclass) es map0) t) =
    match exact C_eqb es t with
    | Some v => Some v
    | None => inherited issubclass (match before_lookup C_eqb es t with Some p => p | None => es end) t
    end.
  Proof.
    fold (after es). destruct (tables es) as [IM IC]. unfold sm_lookup. rewrite IC. destruct (exact C_eqb es t); [reflexivity|].
    destruct (before_lookup C_eqb es t); [reflexivity|]. cbn [option_map]. rewrite <- IM.
    destruct (find (fun p => issubclass t (fst p)) (mapping (after es))) as [[w x]|]; reflexivity.
  Qed.
  (** C18: if every handler is registered before the first lookup, the lookup order does not matter. *)
  Theorem C18_registered_first_partial (maps looks : list ev) t : (forall u, ~ In (Lookup u) maps) -> (forall u v, ~ In (MapTo u v) looks) ->
    fst (lookup (fold_left (sm_step C_eqb issubclass) (maps ++ looks) map0) t) = handler C_eqb issubclass maps t.
  Proof.
    intros M L. rewrite C18_lookup_exactly. unfold handler.
    assert (E : exact C_eqb (maps ++ looks) t = exact C_eqb maps t).
    { clear M. induction looks as [|e looks IH] using rev_ind; [rewrite app_nil_r; reflexivity|]. rewrite app_assoc, exact_snoc.
      destruct e as [u v|u]; [exfalso; apply (L u v); apply in_or_app; right; left; reflexivity|]. apply IH. intros u' v' I. apply (L u' v'). apply in_or_app. left. exact I. }
    rewrite E. destruct (exact C_eqb maps t); [reflexivity|]. clear E.
    assert (I : forall l, (forall u v, ~ In (MapTo u v) l) -> inherited issubclass (maps ++ l) t = inherited issubclass maps t).
    { clear M L looks. intros l. induction l as [|e l IH] using rev_ind; intros L; [rewrite app_nil_r; reflexivity|]. rewrite app_assoc, inherited_snoc, IH.
      - destruct (inherited issubclass maps t); [reflexivity|]. destruct e as [u v|u]; [exfalso; apply (L u v); apply in_or_app; right; left; reflexivity|reflexivity].
      - intros u v J. apply (L u v). apply in_or_app. left. exact J. }
    assert (B : forall l p, (forall u v, ~ In (MapTo u v) l) -> before_lookup C_eqb (maps ++ l) t = Some p -> exists l', p = maps ++ l' /\ forall u v, ~ In (MapTo u v) l').
    { clear L looks. intros l. induction l as [|e l IH] using rev_ind; intros p L H.
      - exfalso. rewrite app_nil_r in H. clear I L. revert p H. induction maps as [|e m IH]; intros p H; [discriminate|]. cbn in H.
        destruct e as [u v|u]; [|apply (M u); left; reflexivity]. destruct (before_lookup C_eqb m t) eqn:X; [|discriminate]. apply (IH (fun u J => M u (or_intror J)) _ eq_refl).
      - rewrite app_assoc, before_snoc in H. assert (L' : forall u v, ~ In (MapTo u v) l) by (intros u v J; apply (L u v); apply in_or_app; left; exact J).
        destruct (before_lookup C_eqb (maps ++ l) t) as [q|] eqn:X.
        + injection H as <-. apply (IH q L' eq_refl).
        + destruct e as [u v|u]; [discriminate|]. destruct (C_eqb u t); [|discriminate]. injection H as <-. exists l. auto. }
    destruct (before_lookup C_eqb (maps ++ looks) t) as [p|] eqn:X; [|apply I; exact L]. destruct (B looks p L X) as (l' & -> & L'). apply I. exact L'.
  Qed.
  (** C18: repeating a lookup repeats its answer, whatever else was looked up in between. *)
  Theorem C18_lookups_agree (es looks : list ev) t : (forall u v, ~ In (MapTo u v) looks) ->
    fst (lookup (fold_left (sm_step C_eqb issubclass) (es ++ [Lookup t] ++ looks) map0) t) = fst (lookup (fold_left (sm_step C_eqb issubclass) es map0) t).
  Proof.
    intros L. rewrite !C18_lookup_exactly. rewrite app_assoc.
    assert (E : exact C_eqb ((es ++ [Lookup t]) ++ looks) t = exact C_eqb es t).
    { induction looks as [|e looks IH] using rev_ind; [rewrite app_nil_r, exact_snoc; reflexivity|]. rewrite app_assoc, exact_snoc.
      destruct e as [u v|u]; [exfalso; apply (L u v); apply in_or_app; right; left; reflexivity|]. apply IH. intros u' v' I. apply (L u' v'). apply in_or_app. left. exact I. }
    rewrite E. destruct (exact C_eqb es t); [reflexivity|].
    assert (B : before_lookup C_eqb ((es ++ [Lookup t]) ++ looks) t = Some (match before_lookup C_eqb es t with Some p => p | None => es end)).
    { clear L E. induction looks as [|e looks IH] using rev_ind; [rewrite app_nil_r, before_snoc, C_refl; destruct (before_lookup C_eqb es t); reflexivity|].
      rewrite app_assoc, before_snoc, IH. reflexivity. }
    rewrite B. reflexivity.
  Qed.
End C18.
(** C18: a handler registered for a base after the type was looked up is not found. *)
Theorem C18_late_registration_refuted : exists (es : list (@sm_event nat nat)) t, let sub a b := Nat.leb b a in
  fst (sm_lookup Nat.eqb sub (fold_left (sm_step Nat.eqb sub) es map0) t) <> handler Nat.eqb sub es t.
Proof. exists [Lookup 5%nat; MapTo 3%nat 1%nat], 5%nat. cbn. discriminate. Qed.
Example C18_nonvacuous : let sub a b := Nat.leb b a in
  fst (sm_lookup Nat.eqb sub (fold_left (sm_step Nat.eqb sub) [MapTo 3%nat 1%nat; MapTo 5%nat 2%nat; Lookup 4%nat] map0) 4%nat) = Some 1%nat.
Proof. reflexivity. Qed.

(** * C19 *)
Lemma coordinate_app1 a b d : 0 <= d < zlen a -> coordinate (a ++ b) d = coordinate a d.
Proof. intros B. unfold coordinate, zlen in *. apply app_nth1. lia. Qed.
Lemma coordinate_app2 a b d : zlen a <= d -> coordinate (a ++ b) d = coordinate b (d - zlen a).
Proof.
  intros B. unfold coordinate, zlen in *. rewrite app_nth2 by lia. f_equal. lia.
Qed.
Lemma read_range pre mid post : map (fun d => coordinate (pre ++ mid ++ post) d) (zrange (zlen pre) (zlen pre + zlen mid)) = mid.
Proof.
  revert pre. induction mid as [|x mid IH]; intros pre; [rewrite zrange_nil by (rewrite zlen_nil; lia); reflexivity|].
  rewrite zlen_cons. pose proof (zlen_nonneg _ mid). rewrite zrange_cons by lia. cbn [map]. f_equal.
  - rewrite coordinate_app2, Z.sub_diag by lia. reflexivity.
  - replace (pre ++ (x :: mid) ++ post) with ((pre ++ [x]) ++ mid ++ post) by (rewrite <- app_assoc; reflexivity).
    replace (zlen pre + 1) with (zlen (pre ++ [x])) by (rewrite zlen_app, zlen_cons, zlen_nil; lia).
    replace (zlen pre + (1 + zlen mid)) with (zlen (pre ++ [x]) + zlen mid) by (rewrite zlen_app, zlen_cons, zlen_nil; lia). apply IH.
Qed.
Lemma zlen_2 (l : list Z) : zlen l = 2 -> exists a b, l = [a; b].
Proof. destruct l as [|a [|b [|c l]]]; rewrite ?zlen_cons, ?zlen_nil; intros H; eauto; try lia. pose proof (zlen_nonneg _ l). lia. Qed.
(** C19: which tensors have an encoding. *)
Theorem C19_when_encoded l dim sd dd bs : (exists e, sparsity_encoding l dim sd dd bs = Some e) <-> match l with Coo => 2 <= sd | _ => sd = 2 end.
Proof.
  unfold sparsity_encoding, sparse_levels. destruct bs as [m n]. destruct l; cbn [obind]; unfold guard; (split;
    [intros [e H]; match type of H with context [if ?c then Some tt else None] => destruct c eqn:E end; cbn [obind] in H; [lia|discriminate]|
     intros H; match goal with |- context [if ?c then Some tt else None] => replace c with true by (symmetry; lia) end; cbn [obind]; eauto]).
Qed.
(** C19: an element is at the levels at which torch stores it, except in the BSC layout. *)
Theorem C19_levels_partial l batch sparse dense bs e : l <> Bsc ->
  sparsity_encoding l (zlen batch + zlen sparse + zlen dense) (zlen sparse) (zlen dense) bs = Some e ->
  exists s, stored_at l sparse bs = Some s /\ map (fun p => level_of (batch ++ sparse ++ dense) (fst p)) e = batch ++ s ++ dense.
Proof.
  intros NB. unfold sparsity_encoding. replace (zlen batch + zlen sparse + zlen dense - zlen sparse - zlen dense) with (zlen batch) by lia.
  destruct (sparse_levels l (zlen batch) (zlen sparse) bs) as [lv|] eqn:E; cbn [obind]; [|discriminate]. intros [= <-].
  assert (Q : exists s, stored_at l sparse bs = Some s /\ map (fun p => level_of (batch ++ sparse ++ dense) (fst p)) lv = s).
  { destruct bs as [m n]. unfold sparse_levels, guard in E. destruct l; [| | | |congruence].
    - destruct (Z.leb_spec 2 (zlen sparse)); cbn [obind] in E; [|discriminate]. injection E as <-. exists sparse. split; [reflexivity|].
      etransitivity; [|exact (read_range batch sparse dense)]. cbn [map app]. rewrite !map_app, map_map. cbn [map fst].
      rewrite (zrange_cons (zlen batch)) by lia. cbn [map].
      pose proof (zrange_snoc (zlen batch + 1) (zlen batch + zlen sparse - 1)) as Z1. replace (zlen batch + zlen sparse - 1 + 1) with (zlen batch + zlen sparse) in Z1 by lia.
      rewrite Z1 by lia. rewrite map_app. reflexivity.
    - destruct (Z.eqb_spec (zlen sparse) 2) as [H|]; cbn [obind] in E; [|discriminate]. injection E as <-. apply zlen_2 in H as (r & c & ->). exists [r; c]. split; [reflexivity|].
      cbn [map fst level_of]. rewrite !(coordinate_app2 batch) by lia. rewrite Z.sub_diag. replace (zlen batch + 1 - zlen batch) with 1 by lia. reflexivity.
    - destruct (Z.eqb_spec (zlen sparse) 2) as [H|]; cbn [obind] in E; [|discriminate]. injection E as <-. apply zlen_2 in H as (r & c & ->). exists [c; r]. split; [reflexivity|].
      cbn [map fst level_of]. rewrite !(coordinate_app2 batch) by lia. rewrite Z.sub_diag. replace (zlen batch + 1 - zlen batch) with 1 by lia. reflexivity.
    - destruct (Z.eqb_spec (zlen sparse) 2) as [H|]; cbn [obind] in E; [|discriminate]. injection E as <-. apply zlen_2 in H as (r & c & ->).
      exists [r / m; c / n; r mod m; c mod n]. split; [reflexivity|].
      cbn [map fst level_of]. rewrite !(coordinate_app2 batch) by lia. rewrite Z.sub_diag. replace (zlen batch + 1 - zlen batch) with 1 by lia. reflexivity. }
  destruct Q as (s & S1 & S2). exists s. split; [exact S1|].
  assert (HB : map (fun p => level_of (batch ++ sparse ++ dense) (fst p)) (map (fun d => (Dim d, Batch)) (zrange 0 (zlen batch))) = batch).
  { rewrite map_map. cbn [fst level_of]. exact (read_range [] batch (sparse ++ dense)). }
  assert (HD : map (fun p => level_of (batch ++ sparse ++ dense) (fst p)) (map (fun d => (Dim d, Dense)) (zrange (zlen batch + zlen sparse) (zlen batch + zlen sparse + zlen dense))) = dense).
  { rewrite map_map. cbn [fst level_of]. pose proof (read_range (batch ++ sparse) dense []) as X. rewrite zlen_app, app_nil_r, <- app_assoc in X. exact X. }
  assert (HL : map (fun p => level_of (batch ++ sparse ++ dense) (fst p)) (if 0 <? zlen batch then map (fun d => (Dim d, Batch)) (zrange 0 (zlen batch)) ++ lv else lv) = batch ++ s).
  { destruct (Z.ltb_spec 0 (zlen batch)); [rewrite map_app, HB, S2; reflexivity|]. destruct batch as [|x b]; [exact S2|]. rewrite zlen_cons in *. pose proof (zlen_nonneg _ b). lia. }
  destruct (Z.ltb_spec 0 (zlen dense)).
  - rewrite map_app, HL, HD, <- app_assoc. reflexivity.
  - rewrite HL. destruct dense as [|x d]; [rewrite app_nil_r; reflexivity|]. rewrite zlen_cons in *. pose proof (zlen_nonneg _ d). lia.
Qed.
(** C19: the formats: batch levels, then those of the layout, then dense ones. *)
Theorem C19_formats l dim sd dd bs e : 0 <= dim - sd - dd -> 0 <= dd -> sparsity_encoding l dim sd dd bs = Some e ->
  map snd e = repeat Batch (Z.to_nat (dim - sd - dd)) ++ level_formats l (Z.to_nat sd) ++ repeat Dense (Z.to_nat dd).
Proof.
  intros B D. unfold sparsity_encoding. destruct (sparse_levels l _ sd bs) as [lv|] eqn:E; cbn [obind]; [|discriminate]. intros [= <-].
  assert (C : forall (f : format) (g : Z -> level) a b, map snd (map (fun d => (g d, f)) (zrange a b)) = repeat f (Z.to_nat (b - a))).
  { intros f g a b. rewrite map_map. cbn [snd]. unfold zrange. rewrite map_map. generalize (Z.to_nat (b - a)). intros k. generalize 0%nat. induction k as [|k IH]; intros s; cbn; [reflexivity|]. f_equal. apply IH. }
  assert (Q : map snd lv = level_formats l (Z.to_nat sd)).
  { destruct bs as [m n]. unfold sparse_levels, guard in E. destruct l.
    - destruct (Z.leb_spec 2 sd); cbn [obind] in E; [|discriminate]. injection E as <-. cbn [map app level_formats snd]. rewrite !map_app, C. cbn [map snd]. do 3 f_equal. lia.
    - destruct (sd =? 2); cbn [obind] in E; [|discriminate]. injection E as <-. reflexivity.
    - destruct (sd =? 2); cbn [obind] in E; [|discriminate]. injection E as <-. reflexivity.
    - destruct (sd =? 2); cbn [obind] in E; [|discriminate]. injection E as <-. reflexivity.
    - destruct (sd =? 2); cbn [obind] in E; [|discriminate]. injection E as <-. reflexivity. }
  assert (HL : map snd (if 0 <? dim - sd - dd then map (fun d => (Dim d, Batch)) (zrange 0 (dim - sd - dd)) ++ lv else lv) = repeat Batch (Z.to_nat (dim - sd - dd)) ++ level_formats l (Z.to_nat sd)).
  { destruct (Z.ltb_spec 0 (dim - sd - dd)).
    - rewrite map_app, C, Q, Z.sub_0_r. reflexivity.
    - replace (dim - sd - dd) with 0 by lia. exact Q. }
  destruct (Z.ltb_spec 0 dd).
  - rewrite map_app, HL, C, <- app_assoc. do 3 f_equal. lia.
  - rewrite HL. replace dd with 0 by lia. rewrite app_nil_r. reflexivity.
Qed.
(** C19: no two elements share the values of their levels, in any layout. *)
Lemma levels_of_bsc batch r c dense m n e :
  sparsity_encoding Bsc (zlen batch + 2 + zlen dense) 2 (zlen dense) (m, n) = Some e ->
  map (fun p => level_of (batch ++ [r; c] ++ dense) (fst p)) e = batch ++ [c / m; r / n; c mod m; r mod n] ++ dense.
Proof.
  intros H. assert (K : exists e', sparsity_encoding Bsr (zlen batch + 2 + zlen dense) 2 (zlen dense) (m, n) = Some e') by (apply C19_when_encoded; reflexivity).
  destruct K as [e' K]. unfold sparsity_encoding in *. cbn [sparse_levels] in *. cbn [guard Z.eqb Pos.eqb obind] in *. injection H as <-.
  replace (zlen batch + 2 + zlen dense - 2 - zlen dense) with (zlen batch) by lia.
  assert (HB : map (fun p => level_of (batch ++ [r; c] ++ dense) (fst p)) (map (fun d => (Dim d, Batch)) (zrange 0 (zlen batch))) = batch).
  { rewrite map_map. cbn [fst level_of]. exact (read_range [] batch ([r; c] ++ dense)). }
  assert (HD : map (fun p => level_of (batch ++ [r; c] ++ dense) (fst p)) (map (fun d => (Dim d, Dense)) (zrange (zlen batch + 2) (zlen batch + 2 + zlen dense))) = dense).
  { rewrite map_map. cbn [fst level_of]. pose proof (read_range (batch ++ [r; c]) dense []) as X. rewrite zlen_app, app_nil_r, <- app_assoc in X. exact X. }
  assert (HS : map (fun p => level_of (batch ++ [r; c] ++ dense) (fst p)) [(Floordiv (zlen batch + 1) m, Dense); (Floordiv (zlen batch) n, Compressed); (Mod (zlen batch + 1) m, Dense); (Mod (zlen batch) n, Dense)] = [c / m; r / n; c mod m; r mod n]).
  { cbn [map fst level_of]. rewrite !(coordinate_app2 batch) by lia. rewrite Z.sub_diag. replace (zlen batch + 1 - zlen batch) with 1 by lia. reflexivity. }
  assert (HL : map (fun p => level_of (batch ++ [r; c] ++ dense) (fst p)) (if 0 <? zlen batch then map (fun d => (Dim d, Batch)) (zrange 0 (zlen batch)) ++ [(Floordiv (zlen batch + 1) m, Dense); (Floordiv (zlen batch) n, Compressed); (Mod (zlen batch + 1) m, Dense); (Mod (zlen batch) n, Dense)] else [(Floordiv (zlen batch + 1) m, Dense); (Floordiv (zlen batch) n, Compressed); (Mod (zlen batch + 1) m, Dense); (Mod (zlen batch) n, Dense)]) = batch ++ [c / m; r / n; c mod m; r mod n]).
  { destruct (Z.ltb_spec 0 (zlen batch)); [rewrite map_app, HB, HS; reflexivity|]. rewrite HS. destruct batch as [|x b]; [reflexivity|]. rewrite zlen_cons in *. pose proof (zlen_nonneg _ b). lia. }
  destruct (Z.ltb_spec 0 (zlen dense)).
  - rewrite map_app, HL, HD, <- app_assoc. reflexivity.
  - rewrite HL. destruct dense as [|x d]; [rewrite app_nil_r; reflexivity|]. rewrite zlen_cons in *. pose proof (zlen_nonneg _ d). lia.
Qed.
Lemma div_mod_inj m a b : 0 < m -> a / m = b / m -> a mod m = b mod m -> a = b.
Proof. intros M D R. rewrite (Z.div_mod a m), (Z.div_mod b m), D, R by lia. reflexivity. Qed.
Theorem C19_levels_determine_the_element l batch sparse dense batch' sparse' dense' m n e : 0 < m -> 0 < n ->
  zlen batch' = zlen batch -> zlen sparse' = zlen sparse -> zlen dense' = zlen dense ->
  sparsity_encoding l (zlen batch + zlen sparse + zlen dense) (zlen sparse) (zlen dense) (m, n) = Some e ->
  map (fun p => level_of (batch ++ sparse ++ dense) (fst p)) e = map (fun p => level_of (batch' ++ sparse' ++ dense') (fst p)) e ->
  batch ++ sparse ++ dense = batch' ++ sparse' ++ dense'.
Proof.
  intros M N LB LS LD E H.
  assert (AI : forall (a b a' b' : list Z), zlen a = zlen a' -> a ++ b = a' ++ b' -> a = a' /\ b = b').
  { induction a as [|x a IH]; intros b [|x' a'] b' L X; rewrite ?zlen_cons, ?zlen_nil in L; try (pose proof (zlen_nonneg _ a'); lia); try (pose proof (zlen_nonneg _ a); lia); [auto|].
    cbn in X. injection X as -> X. apply IH in X as [-> ->]; [auto|lia]. }
  destruct l.
  1-4: match type of E with sparsity_encoding ?l _ _ _ _ = _ =>
    assert (NB : l <> Bsc) by discriminate; destruct (C19_levels_partial l batch sparse dense (m, n) e NB E) as (s & S1 & S2);
    rewrite <- LB, <- LS, <- LD in E; destruct (C19_levels_partial l batch' sparse' dense' (m, n) e NB E) as (s' & S1' & S2') end;
    rewrite S2, S2' in H; clear S2 S2'; symmetry in LB; apply (AI _ _ _ _ LB) in H as [-> H]; cbn [stored_at] in S1, S1'.
  - injection S1 as <-. injection S1' as <-. rewrite H. reflexivity.
  - destruct sparse as [|r [|c [|]]]; try discriminate. destruct sparse' as [|r' [|c' [|]]]; try discriminate. injection S1 as <-. injection S1' as <-. rewrite H. reflexivity.
  - destruct sparse as [|r [|c [|]]]; try discriminate. destruct sparse' as [|r' [|c' [|]]]; try discriminate. injection S1 as <-. injection S1' as <-. injection H as -> -> ->. reflexivity.
  - destruct sparse as [|r [|c [|]]]; try discriminate. destruct sparse' as [|r' [|c' [|]]]; try discriminate. injection S1 as <-. injection S1' as <-. injection H as D1 D2 R1 R2 ->.
    rewrite (div_mod_inj m r r' M D1 R1), (div_mod_inj n c c' N D2 R2). reflexivity.
  - assert (S2 : zlen sparse = 2) by (apply (proj1 (C19_when_encoded Bsc _ _ _ _)) with (1 := ex_intro _ e E)). rewrite S2 in LS. destruct (zlen_2 _ S2) as (r & c & ->). destruct (zlen_2 _ LS) as (r' & c' & ->).
    change (zlen [r; c]) with 2 in E. rewrite (levels_of_bsc batch r c dense m n e E) in H. rewrite <- LB, <- LD in E. rewrite (levels_of_bsc batch' r' c' dense' m n e E) in H.
    symmetry in LB. apply (AI _ _ _ _ LB) in H as [-> H]. injection H as D1 D2 R1 R2 ->.
    rewrite (div_mod_inj n r r' N D2 R2), (div_mod_inj m c c' M D1 R1). reflexivity.
Qed.
(** C19: in the BSC layout the block sizes are those of the wrong axes. *)
Theorem C19_bsc_refuted : exists sparse bs e, sparsity_encoding Bsc 2 2 0 bs = Some e /\
  stored_at Bsc sparse bs <> Some (map (fun p => level_of sparse (fst p)) e).
Proof. exists [1; 2], (2, 3). eexists. split; [reflexivity|]. discriminate. Qed.
(** C19: with square blocks the blocks are right, but the order inside a block is not. *)
Theorem C19_bsc_square_partial batch r c dense m e s : sparsity_encoding Bsc (zlen batch + 2 + zlen dense) 2 (zlen dense) (m, m) = Some e -> stored_at Bsc [r; c] (m, m) = Some s ->
  map (fun p => level_of (batch ++ [r; c] ++ dense) (fst p)) e = batch ++ [nth 0 s 0; nth 1 s 0; nth 3 s 0; nth 2 s 0] ++ dense.
Proof. intros E [= <-]. rewrite (levels_of_bsc _ _ _ _ _ _ _ E). reflexivity. Qed.
Example C19_nonvacuous : sparsity_encoding Bsr 4 2 1 (2, 3) = Some [(Dim 0, Batch); (Floordiv 1 2, Dense); (Floordiv 2 3, Compressed); (Mod 1 2, Dense); (Mod 2 3, Dense); (Dim 3, Dense)].
Proof. reflexivity. Qed.

Print Assumptions C17_tracking_exactly.
Print Assumptions C18_lookup_exactly.
Print Assumptions C19_levels_determine_the_element.
