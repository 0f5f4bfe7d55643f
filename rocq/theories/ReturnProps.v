(** C123: what public functions return after the refinement of their returned values. *)
From Coq Require Import Bool PeanoNat Lia List.
From Verif Require Import Prelude ReturnModel ReturnSpec ReturnProofs.
Import ListNotations.
Open Scope nat_scope.

Ltac dob H x E := match type of H with context [obind ?a _] => destruct a as [x|] eqn:E; [cbn [obind] in H|discriminate] end.

(** copyTensorToType: the value made has the wanted type and the same contents; it is a new cell when the type says so *)
Theorem C123_copy : forall content thing (w : world content thing) t v next ops r next' e m x,
  copy_tensor_to_type t v next = Some (ops, r, next') -> fst v < next -> get e (fst v) = Some x -> respects e v -> sound e m ->
  snd r = t /\ next <= next' /\ fst r < next'
  /\ exists e' m' y, run w ops e m = Some (e', m') /\ get e' (fst r) = Some y /\ (forall u, u < next -> get e' u = get e u)
     /\ seen m' y = seen m x /\ (forall n, t = VTensor n -> m' = m) /\ (forall n, t = NTensor n -> exists c, m' = m ++ [c] /\ y = Ref (List.length m)).
Proof.
  intros content thing w t [i s] next ops r next' e m x H LT G RE SO. unfold copy_tensor_to_type in H. cbn [fst snd] in *.
  unfold respects in RE. cbn [fst snd] in RE. rewrite G in RE.
  assert (EX : forall a, x = Ref a -> exists c, nth_error m a = Some c).
  { intros a ->. specialize (SO _ _ G). destruct (nth_error m a) eqn:Q; [eauto|]. apply nth_error_None in Q. lia. }
  assert (B1 : forall u (y : rt content thing) z, u < next -> get ((next, y) :: z) u = get z u) by (intros u y z Q; rewrite get_cons; destruct (Nat.eqb_spec (next) u); [lia|reflexivity]).
  assert (B2 : forall u (y : rt content thing) z, u < next -> get ((S next, y) :: z) u = get z u) by (intros u y z Q; rewrite get_cons; destruct (Nat.eqb_spec (S next) u); [lia|reflexivity]).
  assert (B3 : forall u (y : rt content thing) z, u < next -> get ((S (S next), y) :: z) u = get z u) by (intros u y z Q; rewrite get_cons; destruct (Nat.eqb_spec (S (S next)) u); [lia|reflexivity]).
  assert (K : forall n (y : rt content thing) z, get ((n, y) :: z) n = Some y) by (intros; rewrite get_cons, Nat.eqb_refl; reflexivity).
  destruct s as [n|n|n]; cbn [info_of obind] in H; [| |discriminate].
  - destruct x as [c|a|]; try contradiction. destruct t as [n'|n'|n']; cbn [info_of obind] in H; [| |discriminate];
      destruct (Nat.eqb_spec n n') as [<-|NE]; cbn in H; injection H as <- <- <-; cbn [fst snd].
    + split; [reflexivity|]. split; [lia|]. split; [lia|]. exists e, m, (VT c). cbn. repeat split; auto; discriminate.
    + split; [reflexivity|]. split; [lia|]. split; [lia|]. exists ((next, VT c) :: e), m, (VT c). cbn [run run_op obind fst]. rewrite G. cbn [obind]. repeat split; auto; discriminate.
    + split; [reflexivity|]. split; [lia|]. split; [lia|]. exists ((next, Ref (List.length m)) :: e), (m ++ [c]), (Ref (List.length m)). cbn [run run_op obind fst]. rewrite G. cbn [obind].
      repeat split; auto; try discriminate; [|eauto]. cbn. rewrite nth_error_app2 by lia. rewrite Nat.sub_diag. reflexivity.
    + split; [reflexivity|]. split; [lia|]. split; [lia|]. exists ((S next, Ref (List.length m)) :: (next, VT c) :: e), (m ++ [c]), (Ref (List.length m)). cbn [run run_op obind fst app]. rewrite G. cbn [obind run_op]. cbn [fst]. rewrite K. cbn [obind].
      repeat split; auto; try discriminate; [intros; rewrite B2 by assumption; auto| |eauto]. cbn. rewrite nth_error_app2 by lia. rewrite Nat.sub_diag. reflexivity.
  - destruct x as [c|a|]; try contradiction. destruct (EX _ eq_refl) as [c C]. destruct t as [n'|n'|n']; cbn [info_of obind] in H; [| |discriminate];
      destruct (Nat.eqb_spec n n') as [<-|NE]; cbn in H; injection H as <- <- <-; cbn [fst snd].
    + split; [reflexivity|]. split; [lia|]. split; [lia|]. exists ((next, VT c) :: e), m, (VT c). cbn [run run_op obind fst]. rewrite G. cbn [obind]. rewrite C. cbn [obind].
      repeat split; auto; try discriminate. cbn. rewrite C. reflexivity.
    + split; [reflexivity|]. split; [lia|]. split; [lia|]. exists ((S next, VT c) :: (next, Ref a) :: e), m, (VT c). cbn [run run_op obind fst]. rewrite G. cbn [obind run_op]. cbn [fst]. rewrite K. cbn [obind]. rewrite C. cbn [obind].
      repeat split; auto; try discriminate; [intros; rewrite B2 by assumption; auto|]. cbn. rewrite C. reflexivity.
    + split; [reflexivity|]. split; [lia|]. split; [lia|]. exists ((S next, Ref (List.length m)) :: (next, VT c) :: e), (m ++ [c]), (Ref (List.length m)). cbn [run run_op obind fst app]. rewrite G. cbn [obind run_op]. cbn [fst]. rewrite C. cbn [obind run_op]. cbn [fst]. rewrite K. cbn [obind].
      repeat split; auto; try discriminate; [intros; rewrite B2 by assumption; auto| |eauto]. cbn. rewrite nth_error_app2 by lia. rewrite Nat.sub_diag, C. reflexivity.
    + split; [reflexivity|]. split; [lia|]. split; [lia|]. exists ((S (S next), Ref (List.length m)) :: (S next, VT c) :: (next, Ref a) :: e), (m ++ [c]), (Ref (List.length m)).
      cbn [run run_op obind fst app]. rewrite G. cbn [obind run_op]. cbn [fst]. rewrite K. cbn [obind]. rewrite C. cbn [obind run_op]. cbn [fst]. rewrite K. cbn [obind].
      repeat split; auto; try discriminate; [intros; rewrite B3, B2 by assumption; auto| |eauto]. cbn. rewrite nth_error_app2 by lia. rewrite Nat.sub_diag, C. reflexivity.
Qed.
Print Assumptions C123_copy.
Theorem C123_copy_tensors : forall t v next, (exists x, copy_tensor_to_type t v next = Some x) <-> (forall n, t <> OtherTy n) /\ (forall n, snd v <> OtherTy n).
Proof.
  intros t [i s] next. unfold copy_tensor_to_type. cbn [fst snd]. split.
  - intros [x H]. destruct s; [| |discriminate]; (destruct t; [| |discriminate]); split; discriminate.
  - intros [A B]. destruct s; [| |destruct (B n); reflexivity]; (destruct t; [| |destruct (A n); reflexivity]); cbn [info_of obind]; destruct (_ =? _); cbn; eauto.
Qed.
Print Assumptions C123_copy_tensors.

Section Operands.
Context {content thing : Type} (w : world content thing) (l : list op) (ret : list value) (ef : env content thing) (mf : memory content) (fuel limit : nat).
Hypothesis same : forall v, In v ret -> same_seen ef mf v (see_through fuel l ret v) /\ used_in l ret (see_through fuel l ret v).
Hypothesis low : forall v, used_in l ret v -> fst v < limit.
Hypothesis typed : forall v, used_in l ret v -> respects ef v.

Lemma new_operands_run : forall todo next ops ws next' e ys,
  new_operands fuel l ret todo next = Some (ops, ws, next') -> incl todo ret -> limit <= next ->
  (forall u, u < limit -> get e u = get ef u) -> (forall u a, get e u = Some (Ref a) -> a < List.length mf) -> all_seen mf ef todo = Some ys ->
  next <= next' /\ Forall (fun v => fst v < next') ws
  /\ exists e', run w ops e mf = Some (e', mf) /\ (forall u, u < next -> get e' u = get e u) /\ all_seen mf e' ws = Some ys.
Proof.
  induction todo as [|v todo IH]; cbn [new_operands]; intros next ops ws next' e ys H IN LE B CE A.
  - injection H as <- <- <-. cbn in A. injection A as <-. split; [lia|]. split; [constructor|]. exists e. cbn. auto.
  - destruct (same v (IN v (or_introl eq_refl))) as [S1 S2]. set (v' := see_through fuel l ret v) in *.
    cbn in A. dob A x G. dob A y G'. dob A ys' G2. injection A as <-.
    destruct (S1 _ G) as (x' & X1 & X2). assert (LT : fst v' < limit) by (apply low; exact S2).
    pose proof (typed _ S2) as RE. assert (GE : get e (fst v') = Some x') by (rewrite B; assumption).
    dob H p Q. destruct p as [[ops1 v2] next1]. dob H p Q'. destruct p as [[ops2 ws2] next2]. cbn [obind] in H. injection H as <- <- <-.
    assert (ONE : next <= next1 /\ fst v2 < next1 /\ exists e1, run w ops1 e mf = Some (e1, mf) /\ (forall u, u < next -> get e1 u = get e u) /\ (exists z, get e1 (fst v2) = Some z /\ seen mf z = Some y) /\ (forall u a, get e1 u = Some (Ref a) -> a < List.length mf)).
    { destruct (snd v') as [n|n|n] eqn:TY.
      - cbn in Q. unfold copy_tensor_to_type in Q. rewrite TY in Q. cbn in Q. rewrite Nat.eqb_refl in Q. rewrite TY in Q. cbn in Q. injection Q as <- <- <-.
        split; [lia|]. split; [lia|]. exists e. cbn. split; [reflexivity|]. split; [auto|]. split; [|exact CE]. exists x'. split; [exact GE|congruence].
      - cbn in Q. unfold copy_tensor_to_type in Q. rewrite TY in Q. cbn in Q. rewrite Nat.eqb_refl in Q. rewrite TY in Q. cbn in Q. injection Q as <- <- <-.
        cbn [fst]. split; [lia|]. split; [lia|]. unfold respects in RE. rewrite TY, X1 in RE. destruct x' as [|a|]; try contradiction.
        cbn in X2. destruct (nth_error mf a) as [c|] eqn:C; cbn in X2; [|congruence].
        exists ((next, VT c) :: e). cbn [run run_op fst]. rewrite GE. cbn [obind]. rewrite C. cbn [obind]. split; [reflexivity|].
        split; [intros u U; rewrite get_cons; destruct (Nat.eqb_spec next u); [lia|reflexivity]|].
        split; [exists (VT c); rewrite get_cons, Nat.eqb_refl; split; [reflexivity|cbn; congruence]|].
        intros u a'. rewrite get_cons. destruct (_ =? _); [discriminate|apply CE].
      - injection Q as <- <- <-. split; [lia|]. split; [lia|]. exists e. cbn. split; [reflexivity|]. split; [auto|]. split; [|exact CE]. exists x'. split; [exact GE|congruence]. }
    destruct ONE as (L1 & L2 & e1 & R1 & K1 & (z & Z1 & Z2) & CE1).
    destruct (IH next1 ops2 ws2 next2 e1 ys' Q') as (L3 & F3 & e2 & R2 & K2 & A2); [intros u U; apply IN; right; exact U|lia|intros u U; rewrite K1 by lia; auto|exact CE1|reflexivity|].
    split; [lia|]. split; [constructor; [lia|exact F3]|]. exists e2. rewrite run_app, R1. cbn [obind]. split; [exact R2|].
    split; [intros u U; rewrite K2 by lia; apply K1; exact U|]. cbn. rewrite K2, Z1 by assumption. cbn [obind]. rewrite Z2. cbn [obind]. rewrite A2. reflexivity.
Qed.
End Operands.

(** What the caller gets, and what is left in memory, is unchanged *)
Theorem C123_meaning : forall content thing (w : world content thing) f next f' ret xs m e0 ef mf ys,
  refine_return f next = Some f' -> returns f = [ret] ->
  numbered f next -> Forall typed_op (body f) -> one_type (body f) ret -> renamed_once f ret ->
  (forall a, In (Ref a) xs -> a < List.length m) ->
  bind (arguments f) xs [] = Some e0 -> run w (body f) e0 m = Some (ef, mf) -> all_seen mf ef ret = Some ys ->
  (forall v, used_in (body f) ret v -> fst v < next /\ respects ef v) ->
  outcome w f xs m = Some (ys, mf) /\ outcome w f' xs m = Some (ys, mf).
Proof.
  intros content thing w f next f' ret xs m e0 ef mf ys H RE [ND LO] TY ON RO SO B0 RU A US.
  assert (OF : outcome w f xs m = Some (ys, mf)) by (unfold outcome; rewrite B0; cbn; rewrite RU; cbn; rewrite RE, A; reflexivity).
  split; [exact OF|]. unfold refine_return in H.
  destruct (negb (public f)); [injection H as <-; exact OF|]. destruct (external f); [injection H as <-; exact OF|]. destruct (called f); [discriminate|].
  unfold rewrite_signature in H. rewrite RE in H. dob H p Q. destruct p as [[ops ws] next']. cbn [obind] in H. injection H as <-.
  assert (S0 : sound e0 m).
  { intros u a G. destruct (bind_in _ _ _ _ _ _ B0 G) as [C|[_ C]]; [discriminate|auto]. }
  assert (SEE : forall v, In v ret -> same_seen ef mf v (see_through (S (List.length (body f))) (body f) ret v) /\ used_in (body f) ret (see_through (S (List.length (body f))) (body f) ret v)).
  { intros v I. apply (see_any w (arguments f) (body f) ret xs e0 ef m mf); try assumption; [left; exact I|apply guarded_start; exact I]. }
  destruct (new_operands_run w (body f) ret ef mf (S (List.length (body f))) next SEE (fun v U => proj1 (US v U)) (fun v U => proj2 (US v U)) ret next ops ws next' ef ys Q
    (fun v i => i) (le_n _) (fun u _ => eq_refl) (run_sound w _ _ _ _ _ RU S0) A) as (_ & _ & e' & R & _ & A').
  unfold outcome. cbn [arguments body returns]. rewrite B0. cbn [obind]. rewrite run_app, RU. cbn [obind]. rewrite R. cbn [obind]. rewrite A'. reflexivity.
Qed.
Print Assumptions C123_meaning.

(** Which functions are refused *)
Theorem C123_refused : forall f next, refine_return f next = None <-> public f = true /\ external f = false /\ (called f = true \/ List.length (returns f) <> 1).
Proof.
  intros f next. unfold refine_return, rewrite_signature.
  assert (T : forall fuel l ret todo n, exists x, new_operands fuel l ret todo n = Some x).
  { intros fuel l ret. induction todo as [|v todo IH]; cbn [new_operands]; intros n; [eauto|]. set (v' := see_through fuel l ret v).
    assert (X : exists p, match snd v' with OtherTy _ => Some ([], v', n) | t => copy_tensor_to_type (with_value_semantics t) v' n end = Some p).
    { destruct (snd v') eqn:E; [| |eauto]; apply C123_copy_tensors; rewrite E; split; discriminate. }
    destruct X as [[[o1 v1] n1] X]. rewrite X. cbn [obind]. destruct (IH n1) as [[[o2 v2] n2] X2]. rewrite X2. cbn. eauto. }
  destruct (public f), (external f), (called f); cbn; try (split; [discriminate|intros (A & B & C); discriminate]); try tauto.
  destruct (returns f) as [|ret [|r2 r]]; cbn; [split; [intros _; repeat split; right; discriminate|reflexivity]| |split; [intros _; repeat split; right; discriminate|reflexivity]].
  destruct (T (S (List.length (body f))) (body f) ret ret next) as [[[o v] n] X]. rewrite X. cbn. split; [discriminate|]. intros (_ & _ & [C|C]); [discriminate|]. destruct C. reflexivity.
Qed.
Print Assumptions C123_refused.

(** What changes: copies are added at the end, the returned values and the types of the results; no result is a tensor in memory *)
Theorem C123_signature : forall f next f', refine_return f next = Some f' -> public f = true -> external f = false ->
  public f' = true /\ external f' = false /\ called f' = false /\ arguments f' = arguments f
  /\ (exists ops, body f' = body f ++ ops /\ Forall (fun o => exists r v, o = CopyToVal r v) ops)
  /\ exists ret ws, returns f = [ret] /\ returns f' = [ws] /\ result_types f' = map snd ws /\ List.length ws = List.length ret /\ Forall (fun t => forall n, t <> NTensor n) (result_types f').
Proof.
  intros f next f' H P X. unfold refine_return in H. rewrite P, X in H. cbn in H. destruct (called f) eqn:CA; [discriminate|]. unfold rewrite_signature in H.
  destruct (returns f) as [|ret [|]] eqn:RE; try discriminate. dob H p Q. destruct p as [[ops ws] next']. cbn [obind] in H. injection H as <-. cbn.
  assert (T : forall fuel todo n ops ws n', new_operands fuel (body f) ret todo n = Some (ops, ws, n') ->
     Forall (fun o => exists r v, o = CopyToVal r v) ops /\ List.length ws = List.length todo /\ Forall (fun t => forall n, t <> NTensor n) (map snd ws)).
  { clear. intros fuel. induction todo as [|v todo IH]; cbn [new_operands]; intros n ops ws n' H; [injection H as <- <- <-; repeat split; constructor|].
    set (v' := see_through fuel (body f) ret v) in *. dob H p Q. destruct p as [[o1 v1] n1]. dob H p Q'. destruct p as [[o2 v2] n2]. cbn [obind] in H. injection H as <- <- <-.
    destruct (IH _ _ _ _ Q') as (A & B & C).
    assert (ONE : Forall (fun o => exists r v, o = CopyToVal r v) o1 /\ forall n, snd v1 <> NTensor n).
    { destruct (snd v') eqn:E.
      - unfold copy_tensor_to_type in Q. rewrite E in Q. cbn in Q. rewrite Nat.eqb_refl in Q. rewrite E in Q. cbn in Q. injection Q as <- <- <-. split; [constructor|]. rewrite E. discriminate.
      - unfold copy_tensor_to_type in Q. rewrite E in Q. cbn in Q. rewrite Nat.eqb_refl in Q. rewrite E in Q. cbn in Q. injection Q as <- <- <-. split; [constructor; [eauto|constructor]|discriminate].
      - injection Q as <- <- <-. split; [constructor|]. rewrite E. discriminate. }
    split; [apply Forall_app; tauto|]. cbn. split; [congruence|]. constructor; tauto. }
  destruct (T _ _ _ _ _ _ Q) as (A & B & C). repeat split; eauto. exists ret, ws. auto.
Qed.
Print Assumptions C123_signature.
Theorem C123_others : forall f next, public f = false \/ external f = true -> refine_return f next = Some f.
Proof. intros f next [H|H]; unfold refine_return; rewrite H; [reflexivity|]. destruct (negb (public f)); reflexivity. Qed.
Print Assumptions C123_others.

(** How far is looked through: to the end *)
Lemma defining_unique : forall l o v, NoDup (flat_map (fun o => map fst (results o)) l) -> In o l -> (exists r, In r (results o) /\ fst r = fst v) -> defining l v = Some o.
Proof.
  induction l as [|o' l IH]; cbn; intros o v ND I R; [destruct I|]. destruct (NoDup_app_inv _ _ _ ND) as (_ & N2 & D).
  assert (M : forall o, (exists r, In r (results o) /\ fst r = fst v) <-> In (fst v) (map fst (results o))).
  { intros x. rewrite in_map_iff. split; intros (r & A & B); eauto. }
  destruct (mentions v (results o')) eqn:Q.
  - apply mentions_in, M in Q. destruct I as [<-|I]; [reflexivity|]. apply M in R. destruct (D _ Q). apply in_flat_map. eauto.
  - destruct I as [<-|I]; [|apply IH; assumption]. apply mentions_in in R. congruence.
Qed.
Theorem C123_how_far : forall l ret v, NoDup (flat_map (fun o => map fst (results o)) l) -> ordered l ->
  steps l ret v (see_through (S (List.length l)) l ret v) /\ forall u, ~ step l ret (see_through (S (List.length l)) l ret v) u.
Proof.
  intros l ret v ND OR.
  assert (ST : forall u u', step l ret u u' -> exists o, defining l u = Some o /\ (exists r, o = Cast r u' \/ o = Derefine r u' \/ o = CopyToNon r u' /\ users l ret r = 1)).
  { intros u u' (o & I & R & K). exists o. split; [apply defining_unique; assumption|]. destruct K as [[r K]|[[r K]|(r & K & K')]]; exists r; auto. }
  assert (MAIN : forall fuel pre post v, l = pre ++ post -> ~ In (fst v) (flat_map (fun o => map fst (results o)) post) -> List.length pre < fuel ->
     steps l ret v (see_through fuel l ret v) /\ forall u, ~ step l ret (see_through fuel l ret v) u).
  { induction fuel as [|fuel IH]; intros pre post u E N L; [lia|]. cbn.
    assert (STOP : (forall o r x, defining l u = Some o -> o <> Cast r x /\ o <> Derefine r x /\ (o = CopyToNon r x -> users l ret r <> 1)) -> steps l ret u u /\ forall u', ~ step l ret u u').
    { intros K. split; [constructor|]. intros u' S0. destruct (ST _ _ S0) as (o & D & r & C). destruct (K o r u' D) as (K1 & K2 & K3). destruct C as [C|[C|[C C']]]; [auto|auto|exact (K3 C C')]. }
    destruct (defining l u) as [o|] eqn:D; [|apply STOP; discriminate].
    assert (GO : forall x, In x (operands o) -> (exists r, o = Cast r x \/ o = Derefine r x \/ o = CopyToNon r x /\ users l ret r = 1) ->
       steps l ret u (see_through fuel l ret x) /\ forall u', ~ step l ret (see_through fuel l ret x) u').
    { intros x IX (r & K). destruct (defining_in _ _ _ D) as (I & R).
      assert (IP : In o pre). { rewrite E in I. apply in_app_or in I. destruct I as [I|I]; [exact I|]. destruct N. apply in_flat_map. exists o. split; [exact I|]. apply in_map_iff. destruct R as (r' & A & B). eauto. }
      destruct (in_split _ _ IP) as (p1 & p2 & E'). 
      destruct (IH p1 (o :: p2 ++ post) x) as [A B]; [rewrite E, E', <- app_assoc; reflexivity| |rewrite E', app_length in L; cbn in L; lia|].
      - apply (OR p1 o (p2 ++ post)); [rewrite E, E', <- app_assoc; reflexivity|exact IX].
      - split; [|exact B]. eapply more_steps; [|exact A]. exists o. split; [exact I|]. split; [exact R|]. destruct K as [K|[K|[K K']]]; eauto 6. }
    destruct o as [r x|r x|r x|r x|a b|k rs args]; try (apply STOP; intros o r0 x0 Q; injection Q as <-; repeat split; discriminate).
    - apply GO; [cbn; auto|eauto].
    - destruct (Nat.eqb_spec (users l ret r) 1) as [U|U]; [apply GO; [cbn; auto|eauto 6]|].
      apply STOP. intros o r0 x0 Q. injection Q as <-. repeat split; try discriminate. intros Q. injection Q as <- <-. exact U.
    - apply GO; [cbn; auto|eauto]. }
  apply (MAIN (S (List.length l)) l []); [rewrite app_nil_r; reflexivity|cbn; auto|lia].
Qed.
Print Assumptions C123_how_far.

(** What it is to have one user: the return, or one operation *)
Theorem C123_one_user : forall l ret v, users l ret v = 1 <->
  (exists u, In u ret /\ fst u = fst v) /\ (forall o, In o l -> ~ uses o v)
  \/ ~ (exists u, In u ret /\ fst u = fst v) /\ exists pre o post, l = pre ++ o :: post /\ uses o v /\ (forall o', In o' (pre ++ post) -> ~ uses o' v).
Proof.
  intros l ret v. rewrite <- mentions_in. unfold users.
  assert (Z : List.length (filter (fun o => mentions v (operands o)) l) = 0 <-> forall o, In o l -> ~ uses o v).
  { induction l as [|o l IH]; cbn; [split; [intros _ o []|reflexivity]|]. destruct (mentions v (operands o)) eqn:M; cbn.
    - split; [discriminate|]. intros H. destruct (H o (or_introl eq_refl)). apply mentions_in. exact M.
    - rewrite IH. split; [|auto]. intros H o' [<-|I]; [|auto]. intros U. apply mentions_in in U. congruence. }
  assert (O : List.length (filter (fun o => mentions v (operands o)) l) = 1 <-> exists pre o post, l = pre ++ o :: post /\ uses o v /\ (forall o', In o' (pre ++ post) -> ~ uses o' v)).
  { clear Z. split.
    - induction l as [|o l IH]; cbn; [discriminate|]. destruct (mentions v (operands o)) eqn:M; cbn; intros H.
      + injection H as H. exists [], o, l. split; [reflexivity|]. split; [apply mentions_in; exact M|]. cbn. intros o' I U. apply mentions_in in U.
        assert (J : In o' (filter (fun o => mentions v (operands o)) l)) by (apply filter_In; auto). destruct (filter _ l); [destruct J|discriminate].
      + destruct (IH H) as (pre & o1 & post & -> & A & B). exists (o :: pre), o1, post. split; [reflexivity|]. split; [exact A|]. cbn. intros o' [<-|I]; [|auto]. intros U. apply mentions_in in U. congruence.
    - intros (pre & o & post & -> & A & B). rewrite filter_app, app_length. cbn. apply mentions_in in A. rewrite A. cbn.
      assert (N : forall l', incl l' (pre ++ post) -> filter (fun o => mentions v (operands o)) l' = []).
      { induction l' as [|x l' IH]; cbn; intros I; [reflexivity|]. destruct (mentions v (operands x)) eqn:M; [destruct (B x (I x (or_introl eq_refl))); apply mentions_in; exact M|]. apply IH. intros y Y. apply I. right. exact Y. }
      rewrite !N; [reflexivity|apply incl_appr, incl_refl|apply incl_appl, incl_refl]. }
  destruct (mentions v ret).
  - split; [intros H; left; split; [reflexivity|apply Z; lia]|]. intros [[_ H]|[H _]]; [apply Z in H; lia|destruct H; reflexivity].
  - rewrite Nat.add_0_r, O. split; [intros H; right; split; [discriminate|exact H]|]. intros [[H _]|[_ H]]; [discriminate|exact H].
Qed.
Print Assumptions C123_one_user.

(** ** Cases *)
Definition plain_world : world nat nat.
Proof. refine {| other := fun _ _ _ => None |}; discriminate. Defined.
(** (tensor, tensor) -> a copy of a cast value is returned; the pass returns the cast-free value *)
Definition simple : function :=
  {| public := true; external := false; called := false; arguments := [(0, VTensor 1)];
     body := [CopyToNon (1, NTensor 1) (0, VTensor 1); Cast (2, NTensor 0) (1, NTensor 1); Derefine (3, OtherTy 7) (2, NTensor 0)];
     returns := [[(3, OtherTy 7)]]; result_types := [OtherTy 7] |}.
Example C123_nonvacuous :
  refine_return simple 4 = Some {| public := true; external := false; called := false; arguments := arguments simple; body := body simple; returns := [[(0, VTensor 1)]]; result_types := [VTensor 1] |}
  /\ outcome plain_world simple [VT 5] [] = Some ([VT 5], [5])
  /\ numbered simple 4 /\ Forall typed_op (body simple) /\ one_type (body simple) [(3, OtherTy 7)] /\ renamed_once simple [(3, OtherTy 7)].
Proof.
  split; [reflexivity|]. split; [reflexivity|]. split; [split; cbn; [repeat constructor; cbn; intuition discriminate|repeat constructor; lia]|].
  split; [repeat constructor; cbn; try discriminate; eauto|]. split.
  - intros o v r o' I R U E. cbn in *. decompose [or and] I; decompose [or and] U; subst; cbn in *; try contradiction; intuition; subst; cbn in *; try discriminate; reflexivity.
  - intros r v I N. cbn in I. decompose [or] I; try contradiction; try discriminate; match goal with Q : _ = _ |- _ => injection Q as <- <- end; cbn; lia.
Qed.
(** A copy whose only user is a cast is looked through even if the cast tensor is changed before it is returned *)
Definition changed : function :=
  {| public := true; external := false; called := false; arguments := [(0, VTensor 1); (1, VTensor 0)];
     body := [CopyToNon (2, NTensor 1) (0, VTensor 1); Cast (3, NTensor 0) (2, NTensor 1); Overwrite (1, VTensor 0) (3, NTensor 0)];
     returns := [[(3, NTensor 0)]]; result_types := [NTensor 0] |}.
Theorem C123_changed_refuted : exists f', refine_return changed 4 = Some f'
  /\ outcome plain_world changed [VT 5; VT 6] [] = Some ([VT 6], [6]) /\ outcome plain_world f' [VT 5; VT 6] [] = Some ([VT 5], [6]).
Proof. eexists. split; [reflexivity|]. split; reflexivity. Qed.
Print Assumptions C123_changed_refuted.
(** Without the cast the change is seen *)
Example C123_change_seen : let f := {| public := true; external := false; called := false; arguments := [(0, VTensor 1); (1, VTensor 1)];
     body := [CopyToNon (2, NTensor 1) (0, VTensor 1); Overwrite (1, VTensor 1) (2, NTensor 1)]; returns := [[(2, NTensor 1)]]; result_types := [NTensor 1] |} in
  exists f', refine_return f 3 = Some f' /\ result_types f' = [VTensor 1] /\ outcome plain_world f' [VT 5; VT 6] [] = Some ([VT 6], [6]).
Proof. eexists. split; [reflexivity|]. split; reflexivity. Qed.
