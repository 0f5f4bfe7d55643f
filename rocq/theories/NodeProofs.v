(** Lemmas for C121. *)
From Coq Require Import ZArith Bool String Lia List.
From Verif Require Import Prelude DtypeModel TypesModel JitTypesModel JitTypesSpec JitTypesProps NodeModel NodeSpec.
From Verif Require RegistryModel.
Import ListNotations.
Open Scope string_scope.
Open Scope list_scope.
Open Scope nat_scope.

Section Tree.
Context (P : node -> Prop) (Q : block -> Prop).
Context (Hs : forall a b c d, P (NSchema a b c d)) (Hp : forall a b c d, P (NPrim a b c d)) (Hc : forall a b, P (NConstant a b)) (Hl : forall a b c, Q c -> P (NLoop a b c)) (Hi : forall a b c d, Q c -> Q d -> P (NIf a b c d))
  (Hm : forall a b c d e, P (NCallMethod a b c d e)) (Hf : forall a b c d, P (NCallFunction a b c d)) (Hu : P NUnknown) (Hb : forall p l r, Forall P l -> Q (Block p l r)).
Fixpoint node_tree (n : node) : P n :=
  match n with
  | NSchema a b c d => Hs a b c d | NPrim a b c d => Hp a b c d | NConstant a b => Hc a b | NLoop a b c => Hl a b c (block_tree c) | NIf a b c d => Hi a b c d (block_tree c) (block_tree d)
  | NCallMethod a b c d e => Hm a b c d e | NCallFunction a b c d => Hf a b c d | NUnknown => Hu
  end
with block_tree (b : block) : Q b :=
  match b with Block p l r => Hb p l r ((fix all l : Forall P l := match l with [] => Forall_nil _ | n :: r => Forall_cons n (node_tree n) (all r) end) l) end.
End Tree.

(** ** States *)
Record ok (st : state) : Prop := { ok_keys : NoDup (map fst (value_map st)); ok_vals : NoDup (map (fun p => fst (snd p)) (value_map st)); ok_low : forall j v, In (j, v) (value_map st) -> fst v < next st }.
Record grows (st st' : state) : Prop := { g_next : next st <= next st'; g_map : exists new, value_map st' = new ++ value_map st /\ forall j v, In (j, v) new -> next st <= fst v }.
Lemma grows_refl st : grows st st.
Proof. split; [lia|]. exists []. split; [reflexivity|intros ? ? []]. Qed.
Lemma grows_trans a b c : grows a b -> grows b c -> grows a c.
Proof.
  intros [A (n & B & C)] [A' (n' & B' & C')]. split; [lia|]. exists (n' ++ n). split; [now rewrite B', B, app_assoc|]. intros j v K. apply in_app_or in K as [K|K]; [apply C' in K; lia|now apply C in K].
Qed.
Lemma ok_fresh : ok fresh_state.
Proof. split; cbn; try constructor. intros ? ? []. Qed.
Lemma find_value_some st j v : find_value st j = Some v -> In (j, v) (value_map st).
Proof. unfold find_value. destruct (find _ _) as [[k u]|] eqn:F; [|discriminate]. intros E. injection E as <-. apply find_some in F as [K L]. cbn in L. apply Nat.eqb_eq in L. now subst. Qed.
Lemma find_value_none st j : find_value st j = None <-> forall v, ~ In (j, v) (value_map st).
Proof.
  unfold find_value. split.
  - destruct (find _ _) as [p|] eqn:F; [discriminate|]. intros _ v K. apply (find_none _ _ F) in K. cbn in K. now rewrite Nat.eqb_refl in K.
  - intros N. destruct (find _ _) as [[k u]|] eqn:F; [|reflexivity]. apply find_some in F as [K L]. cbn in L. apply Nat.eqb_eq in L. subst. now apply N in K.
Qed.
Lemma fresh_spec ts : forall st vs st', fresh ts st = (vs, st') -> value_map st' = value_map st /\ next st' = next st + List.length ts /\ map snd vs = ts /\ map fst vs = seq (next st) (List.length ts).
Proof.
  induction ts as [|t ts IH]; intros st vs st' E; cbn [fresh] in E.
  - injection E as <- <-. cbn. rewrite Nat.add_0_r. auto.
  - destruct (fresh ts _) as [us st1] eqn:F. injection E as <- <-. apply IH in F as (A & B & C & D). cbn in *. rewrite A, B, C, D. split; [reflexivity|]. split; [lia|]. split; reflexivity.
Qed.
Lemma map_value_ok j v st st' : ok st -> fst v < next st -> (forall k u, In (k, u) (value_map st) -> fst u <> fst v) -> map_value j v st = Some st' ->
  ok st' /\ next st' = next st /\ value_map st' = (j, v) :: value_map st /\ forall u, ~ In (j, u) (value_map st).
Proof.
  intros [A B C] L N E. unfold map_value in E. destruct (find_value st j) as [u|] eqn:F; [discriminate|]. injection E as <-. cbn. pose proof (proj1 (find_value_none st j) F) as F'. split; [|auto]. split; cbn.
  - constructor; [|exact A]. intros K. apply in_map_iff in K as ([k u] & E & K). cbn in E. subst. now apply F' in K.
  - constructor; [|exact B]. intros K. apply in_map_iff in K as ([k u] & E & K). cbn in E. now apply N in K.
  - intros k u [E|K]; [now injection E as <- <-|eauto].
Qed.
Lemma map_results_ok outs : forall results st st', ok st -> NoDup (map fst results) -> (forall v, In v results -> fst v < next st /\ forall k u, In (k, u) (value_map st) -> fst u <> fst v) -> map_results outs results st = Some st' ->
  ok st' /\ next st' = next st /\ List.length outs = List.length results /\ value_map st' = rev (combine (map fst outs) results) ++ value_map st.
Proof.
  induction outs as [|[j t] outs IH]; intros [|v results] st st' O ND H E; cbn [map_results] in E; try discriminate.
  - injection E as <-. auto.
  - unfold obind in E. destruct (map_value j v st) as [st1|] eqn:M; [|discriminate]. destruct (H v (or_introl eq_refl)) as [L N]. destruct (map_value_ok j v st st1 O L N M) as (O1 & N1 & V1 & _). inversion ND as [|? ? ND1 ND2]; subst.
    apply IH in E as (O2 & N2 & L2 & V2); auto.
    + split; [exact O2|]. split; [congruence|]. split; [cbn; lia|]. cbn. rewrite V2, V1, <- app_assoc. reflexivity.
    + intros u K. rewrite N1, V1. split; [now apply H; right|]. intros k u' [E'|K']; [injection E' as <- <-|apply (proj2 (H u (or_intror K)) k u' K')]. intros E'. apply ND1. rewrite E'. now apply in_map.
Qed.
(** Results of an operation *)
Lemma results_ok types outs st vs st1 st' : ok st -> fresh types st = (vs, st1) -> map_results outs vs st1 = Some st' ->
  ok st' /\ grows st st' /\ next st' = next st + List.length types /\ map snd vs = types /\ map fst vs = seq (next st) (List.length types) /\ List.length outs = List.length vs /\ value_map st' = rev (combine (map fst outs) vs) ++ value_map st.
Proof.
  intros O F M. apply fresh_spec in F as (A & B & C & D). destruct O as [K1 K2 K3].
  assert (LO : forall v, In v vs -> next st <= fst v < next st + List.length types). { intros v K. apply (in_map fst) in K. rewrite D in K. now apply in_seq in K. }
  apply map_results_ok in M as (O1 & N1 & L1 & V1).
  - rewrite A in V1. split; [exact O1|]. split; [|split; [lia|auto]]. split; [lia|]. eexists. split; [exact V1|]. intros j v K. apply in_rev in K. apply in_combine_r in K. now apply LO in K.
  - split; rewrite ?A; auto. intros j v K. apply K3 in K. lia.
  - rewrite D. apply seq_NoDup.
  - intros v K. rewrite A, B. apply LO in K. split; [lia|]. intros k u K'. apply K3 in K'. lia.
Qed.

Section Sim.
Context {val mem : Type}.
Notation env := (@env val).
(** ** Environments *)
Record agree (st : state) (e e' : env) : Prop := { a_same : forall j v, In (j, v) (value_map st) -> get e j = get e' (fst v); a_jit : forall j, get e j <> None -> exists v, In (j, v) (value_map st); a_mlir : forall k, get e' k <> None -> k < next st }.
Lemma agree_nil : agree fresh_state [] [].
Proof. split; cbn; [intros ? ? []|intros j K; now contradiction K|intros j K; now contradiction K]. Qed.
Lemma agree_grows st st' e e' : ok st' -> grows st st' -> agree st e e' -> agree st' e e'.
Proof.
  intros O [L (new & V & N)] [A B C]. split.
  - intros j v K. pose proof K as K0. rewrite V in K. apply in_app_or in K as [K|K]; [|auto]. pose proof (N j v K) as LN. assert (get e' (fst v) = None) as -> by (destruct (get e' (fst v)) eqn:G; [|reflexivity]; assert (X : get e' (fst v) <> None) by congruence; apply C in X; lia).
    destruct (get e j) eqn:G; [|reflexivity]. exfalso. assert (X : get e j <> None) by congruence. apply B in X as [u U]. pose proof (ok_keys st' O) as ND. rewrite V, map_app in ND. clear - ND K U. induction new as [|[a b] new IH]; [destruct K|]. cbn in ND. inversion ND as [|? ? N1 N2]; subst. destruct K as [E|K]; [|auto]. injection E as -> ->. apply N1. apply in_or_app. right. apply (in_map fst) in U. exact U.
  - intros j K. apply B in K as [v K]. exists v. rewrite V. apply in_or_app. auto.
  - intros k K. apply C in K. lia.
Qed.
Lemma get_cons (e : env) k x j : get ((k, x) :: e) j = if k =? j then Some x else get e j.
Proof. unfold get. cbn. now destruct (k =? j). Qed.
Lemma bind_pairs ks : forall ks' xs (e e' e1 e1' : env), NoDup ks -> NoDup ks' -> bind ks xs e = Some e1 -> bind ks' xs e' = Some e1' ->
  (forall k k', In (k, k') (combine ks ks') -> get e1 k = get e1' k' /\ get e1' k' <> None) /\ (forall k, ~ In k ks -> get e1 k = get e k) /\ (forall k, ~ In k ks' -> get e1' k = get e' k).
Proof.
  induction ks as [|k ks IH]; intros [|k' ks'] [|x xs] e e' e1 e1' ND ND' B B'; cbn [bind] in B, B'; try discriminate.
  - injection B as <-. injection B' as <-. cbn. split; [intros ? ? []|auto].
  - inversion ND as [|? ? N1 N2]; subst. inversion ND' as [|? ? N1' N2']; subst. destruct (IH ks' xs _ _ _ _ N2 N2' B B') as (A & C & D). split; [|split].
    + intros a b [E|K]; [injection E as <- <-|now apply A]. rewrite (C k N1), (D k' N1'), !get_cons, !Nat.eqb_refl. split; [reflexivity|discriminate].
    + intros a K. rewrite C by (intros X; apply K; now right). rewrite get_cons. destruct (k =? a) eqn:Q; [|reflexivity]. apply Nat.eqb_eq in Q. subst. contradiction K. now left.
    + intros a K. rewrite D by (intros X; apply K; now right). rewrite get_cons. destruct (k' =? a) eqn:Q; [|reflexivity]. apply Nat.eqb_eq in Q. subst. contradiction K. now left.
Qed.
Lemma bind_some ks : forall xs (e : env), (exists e1, bind ks xs e = Some e1) <-> List.length ks = List.length xs.
Proof.
  induction ks as [|k ks IH]; intros [|x xs] e; cbn [bind List.length]; [split; eauto|split; [intros [? E]; discriminate|discriminate]|split; [intros [? E]; discriminate|discriminate]|]. rewrite IH. lia.
Qed.
Lemma bind_both ks ks' xs (e e' : env) : List.length ks = List.length ks' -> (exists e1 e1', bind ks xs e = Some e1 /\ bind ks' xs e' = Some e1') \/ (bind ks xs e = None /\ bind ks' xs e' = None).
Proof.
  intros L. destruct (Nat.eq_dec (List.length ks) (List.length xs)) as [Q|Q].
  - left. destruct (proj2 (bind_some ks xs e) Q) as [e1 E]. destruct (proj2 (bind_some ks' xs e') ltac:(lia)) as [e1' E']. eauto.
  - right. split; [destruct (bind ks xs e) eqn:E|destruct (bind ks' xs e') eqn:E]; try reflexivity; exfalso; apply Q; [apply (proj1 (bind_some ks xs e)); eauto|rewrite L; apply (proj1 (bind_some ks' xs e')); eauto].
Qed.
Definition sim (st : state) (r r' : option (env * mem)) : Prop :=
  match r, r' with Some (e, m), Some (e', m') => m = m' /\ agree st e e' | None, None => True | _, _ => False end.
Lemma fst_combine {A B} (l : list A) (m : list B) : List.length l = List.length m -> map fst (combine l m) = l.
Proof. revert m. induction l as [|a l IH]; intros [|b m] E; try discriminate; [reflexivity|]. cbn. f_equal. apply IH. now injection E. Qed.
Lemma snd_combine {A B} (l : list A) (m : list B) : List.length l = List.length m -> map snd (combine l m) = m.
Proof. revert m. induction l as [|a l IH]; intros [|b m] E; try discriminate; [reflexivity|]. cbn. f_equal. apply IH. now injection E. Qed.
Lemma NoDup_mid {A} (l m : list A) : NoDup (l ++ m) -> NoDup l.
Proof. induction l as [|a l IH]; intros N; [constructor|]. cbn in N. inversion N as [|? ? N1 N2]; subst. constructor; [intros K; apply N1, in_or_app; auto|auto]. Qed.
Lemma nodup_key {A B} (l : list (A * B)) a b b' : NoDup (map fst l) -> In (a, b) l -> In (a, b') l -> b = b'.
Proof.
  induction l as [|[x y] l IH]; intros N K K'; [destruct K|]. cbn in N. inversion N as [|? ? N1 N2]; subst. destruct K as [E|K], K' as [E'|K']; try congruence; [| |auto].
  - injection E as -> ->. contradiction N1. apply (in_map fst) in K'. exact K'.
  - injection E' as -> ->. contradiction N1. apply (in_map fst) in K. exact K.
Qed.
Lemma store_sim st outs (vs : list value) old (e e' : env) (r : option (list val * mem)) : ok st -> List.length outs = List.length vs -> value_map st = rev (combine outs vs) ++ old -> (forall v, In v vs -> fst v < next st) -> NoDup (map fst vs) ->
  agree st e e' -> sim st (store outs e r) (store (map fst vs) e' r).
Proof.
  intros O L V LO NV [A B C]. unfold store, obind. destruct r as [[ys m]|]; [|exact Logic.I]. destruct (bind_both outs (map fst vs) ys e e' ltac:(rewrite map_length; exact L)) as [(e1 & e1' & E & E')|[E E']]; rewrite E, E'; [|exact Logic.I]. split; [reflexivity|].
  assert (NO : NoDup outs). { pose proof (ok_keys st O) as ND. rewrite V, map_app in ND. apply NoDup_mid in ND. rewrite map_rev in ND. apply NoDup_rev in ND. rewrite rev_involutive, fst_combine in ND; auto. }
  destruct (bind_pairs outs (map fst vs) ys e e' e1 e1' NO NV E E') as (P & Q & Q').
  assert (CK : forall j v, In (j, v) (combine outs vs) -> In (j, fst v) (combine outs (map fst vs))). { clear. revert vs. induction outs as [|o outs IH]; intros [|v vs] j u K; try destruct K; [injection H as <- <-; now left|right; auto]. }
  assert (IN : forall j v, In (j, v) (combine outs vs) -> In (j, v) (value_map st)) by (intros j v K; rewrite V; apply in_or_app; left; now apply -> in_rev).
  split.
  - intros j v K. destruct (in_dec Nat.eq_dec j outs) as [J|J].
    + assert (X : exists u, In (j, u) (combine outs vs)). { rewrite <- (fst_combine outs vs L) in J. apply in_map_iff in J as ([j' u] & <- & J). eauto. } destruct X as [u X]. rewrite (nodup_key _ _ _ _ (ok_keys st O) K (IN j u X)). apply P. now apply CK.
    + rewrite Q by exact J. rewrite Q'; [now apply A|]. intros M. apply in_map_iff in M as (u & F & M). assert (X : exists j', In (j', u) (combine outs vs)). { rewrite <- (snd_combine outs vs L) in M. apply in_map_iff in M as ([j' u'] & <- & M). eauto. } destruct X as [j' X].
      apply J. assert (j = j') as ->; [|now apply in_combine_l in X]. pose proof (ok_vals st O) as ND. apply IN in X. clear - ND K X F. induction (value_map st) as [|[a b] l IH]; [destruct K|]. cbn in ND. inversion ND as [|? ? N1 N2]; subst. destruct K as [E|K], X as [E'|X]; try congruence; [| |auto].
      * injection E as -> ->. contradiction N1. apply in_map_iff. exists (j', u). auto.
      * injection E' as -> ->. contradiction N1. apply in_map_iff. exists (j, v). auto.
  - intros j K. destruct (in_dec Nat.eq_dec j outs) as [J|J]; [|rewrite Q in K by exact J; now apply B]. rewrite <- (fst_combine outs vs L) in J. apply in_map_iff in J as ([j' u] & <- & J). exists u. now apply IN.
  - intros k K. destruct (in_dec Nat.eq_dec k (map fst vs)) as [J|J]; [apply in_map_iff in J as (v & <- & J); now apply LO|rewrite Q' in K by exact J; now apply C].
Qed.
Lemma gets_app (e : env) l m : gets e (l ++ m) = obind (gets e l) (fun x => obind (gets e m) (fun y => Some (x ++ y))).
Proof.
  induction l as [|k l IH]; cbn [gets app]; [unfold obind; now destruct (gets e m)|]. unfold obind in *. destruct (get e k); [|reflexivity]. rewrite IH. destruct (gets e l); [|reflexivity]. now destruct (gets e m).
Qed.
Lemma gets_same (e e' : env) l l' : Forall2 (fun j k => get e j = get e' k) l l' -> gets e l = gets e' l'.
Proof. induction 1 as [|j k l l' E _ IH]; [reflexivity|]. cbn. now rewrite E, IH. Qed.
Lemma lookup_in st ins : forall vs, lookup_values st ins = Some vs -> Forall2 (fun j v => In (j, v) (value_map st)) ins vs.
Proof.
  induction ins as [|j ins IH]; intros vs E; cbn [lookup_values] in E; [injection E as <-; constructor|]. unfold obind in E. destruct (find_value st j) as [v|] eqn:F; [|discriminate]. destruct (lookup_values st ins) as [us|] eqn:G; [|discriminate]. injection E as <-. constructor; [now apply find_value_some|auto].
Qed.
Lemma lookup_gets st ins vs (e e' : env) : agree st e e' -> lookup_values st ins = Some vs -> gets e ins = gets e' (map fst vs).
Proof. intros A L. apply lookup_in in L. apply gets_same. induction L as [|j v ins vs K _ IH]; constructor; [now apply (a_same st e e' A)|exact IH]. Qed.
Lemma lookup_low st ins vs : ok st -> lookup_values st ins = Some vs -> Forall (fun v => fst v < next st) vs.
Proof. intros O L. apply lookup_in in L. induction L as [|j v ins vs K _ IH]; constructor; [now apply (ok_low st O j v)|exact IH]. Qed.

(** ** Lists of operations *)
Context (w : world val mem) (fuel : nat).
Fixpoint run_ops (l : list mop) (e : env) (m : mem) : option (env * mem) := match l with [] => Some (e, m) | o :: r => do (e, m) <- run_op w fuel o e m; run_ops r e m end.
Lemma run_app l : forall k e m, run_ops (l ++ k) e m = obind (run_ops l e m) (fun p => run_ops k (fst p) (snd p)).
Proof. induction l as [|o l IH]; intros k e m; [reflexivity|]. cbn [run_ops app]. unfold obind in *. destruct (run_op w fuel o e m) as [[e1 m1]|]; [apply IH|reflexivity]. Qed.
Definition run_body (t : string) := fix run_body (l : list mop) (e : env) (m : mem) : option (list val * mem) :=
  match l with
  | [] => None
  | [MOp (MNamed name NoAttr) ins [] []] => if string_dec name t then do ys <- gets e (map fst ins); Some (ys, m) else None
  | o :: r => do (e, m) <- run_op w fuel o e m; run_body r e m
  end.
Lemma run_block_eq args ops t xs (e : env) m : run_block w fuel (MBlock args ops) t xs e m = obind (bind (map fst args) xs e) (fun e => run_body t ops e m).
Proof. reflexivity. Qed.
Lemma run_body_cons t o r (e : env) m : r <> [] -> run_body t (o :: r) e m = obind (run_op w fuel o e m) (fun p => run_body t r (fst p) (snd p)).
Proof.
  intros N. destruct r as [|o' r]; [now contradiction N|]. destruct o as [[c|name []|x|a] ins' [|] [|]]; cbn [run_body]; unfold obind; (match goal with |- match ?r with _ => _ end = match ?r with _ => _ end => destruct r as [[e2 m2]|]; reflexivity end).
Qed.
Lemma run_body_ends ops t ins : forall (e : env) m, run_body t (ops ++ [MOp (MNamed t NoAttr) ins [] []]) e m = obind (run_ops ops e m) (fun p => obind (gets (fst p) (map fst ins)) (fun ys => Some (ys, snd p))).
Proof.
  induction ops as [|o ops IH]; intros e m.
  - cbn [app run_ops obind fst snd run_body]. destruct (string_dec t t) as [_|N]; [|now contradiction N]. reflexivity.
  - cbn [app run_ops]. rewrite run_body_cons by (destruct ops; discriminate). unfold obind at 1 2. destruct (run_op w fuel o e m) as [[e2 m2]|]; [|reflexivity]. apply IH.
Qed.
Lemma run_block_ends args ops t ins xs (e : env) m : run_block w fuel (MBlock args (ops ++ [MOp (MNamed t NoAttr) ins [] []])) t xs e m =
  obind (bind (map fst args) xs e) (fun e => obind (run_ops ops e m) (fun p => obind (gets (fst p) (map fst ins)) (fun ys => Some (ys, snd p)))).
Proof. rewrite run_block_eq. unfold obind at 1 2. destruct (bind (map fst args) xs e) as [e1|]; [|reflexivity]. apply run_body_ends. Qed.
(** ** Adjusted values *)
Lemma agree_cast st (e e' : env) c x n : ok st -> next st <= c -> c < n -> agree st e e' -> agree {| next := n; value_map := value_map st |} e ((c, x) :: e').
Proof.
  intros O L LN [A B C]. split; cbn.
  - intros j v K. rewrite get_cons. pose proof (ok_low st O j v K). destruct (c =? fst v) eqn:Q; [apply Nat.eqb_eq in Q; lia|]. now apply A.
  - exact B.
  - intros k. rewrite get_cons. destruct (c =? k) eqn:Q; [apply Nat.eqb_eq in Q; lia|]. intros K. apply C in K. lia.
Qed.
Lemma ok_next st n : ok st -> next st <= n -> ok {| next := n; value_map := value_map st |}.
Proof. intros [A B C] L. split; cbn; auto. intros j v K. apply C in K. lia. Qed.
Lemma adjust_sim vs : forall ds b st ops ws st', ok st -> Forall (fun v => fst v < next st) vs -> adjust_values vs ds b st = Some (ops, ws, st') ->
  value_map st' = value_map st /\ next st <= next st' /\ Forall (fun v => fst v < next st') ws /\
  forall e e' m, agree st e e' ->
    match run_ops ops e' m with
    | Some (e1, m1) => m1 = m /\ agree st' e e1 /\ (forall k, k < next st -> get e1 k = get e' k) /\ gets e1 (map fst ws) = gets e' (map fst vs)
    | None => gets e' (map fst vs) = None
    end.
Proof.
  induction vs as [|v vs IH]; intros [|d ds] b st ops ws st' O LV E; cbn [adjust_values] in E; try discriminate.
  - injection E as <- <- <-. split; [reflexivity|]. split; [lia|]. split; [constructor|]. intros e e' m A. cbn. auto.
  - inversion LV as [|? ? Lv LV']; subst. unfold obind in E at 1. destruct (adjust (snd v) d b) as [a|] eqn:AD; [|discriminate].
    assert (CAST : forall o us s1, adjust_values vs ds b {| next := S (next st); value_map := value_map st |} = Some (o, us, s1) -> (ops, ws, st') = (MOp (MCast a) [v] [(next st, d)] [] :: o, (next st, d) :: us, s1) ->
      value_map st' = value_map st /\ next st <= next st' /\ Forall (fun v => fst v < next st') ws /\
      forall e e' m, agree st e e' -> match run_ops ops e' m with Some (e1, m1) => m1 = m /\ agree st' e e1 /\ (forall k, k < next st -> get e1 k = get e' k) /\ gets e1 (map fst ws) = gets e' (map fst (v :: vs)) | None => gets e' (map fst (v :: vs)) = None end).
    { intros o us s1 E1 E2. injection E2 as -> -> ->. apply IH in E1 as (V1 & N1 & L1 & S1); [|apply ok_next; [exact O|lia]|cbn; eapply Forall_impl; [|exact LV']; cbn; intros; lia]. cbn [value_map next] in *. split; [exact V1|]. split; [lia|]. split; [constructor; [cbn; lia|exact L1]|].
      intros e e' m A. cbn [run_ops run_op map fst gets]. unfold obind at 2. destruct (get e' (fst v)) as [x|] eqn:G; [|cbn; reflexivity]. cbn [obind gets store bind map fst].
      assert (A1 : agree {| next := S (next st); value_map := value_map st |} e ((next st, x) :: e')) by (apply agree_cast; auto).
      specialize (S1 e _ m A1). assert (GV : gets ((next st, x) :: e') (map fst vs) = gets e' (map fst vs)).
      { apply gets_same. clear - LV'. induction LV' as [|u us L _ IH]; constructor; [|exact IH]. rewrite get_cons. destruct (next st =? fst u) eqn:Q; [apply Nat.eqb_eq in Q; lia|reflexivity]. }
      rewrite GV in S1. destruct (run_ops o _ m) as [[e1 m1]|].
      - destruct S1 as (-> & A2 & K2 & G2). split; [reflexivity|]. split; [exact A2|]. split.
        + intros k K. rewrite K2 by lia. rewrite get_cons. destruct (next st =? k) eqn:Q; [apply Nat.eqb_eq in Q; lia|reflexivity].
        + rewrite K2 by lia. rewrite get_cons, Nat.eqb_refl, G2. reflexivity.
      - rewrite S1. reflexivity. }
    destruct a; unfold obind in E.
    + destruct (adjust_values vs ds b st) as [[[o us] s1]|] eqn:E1; [|discriminate]. injection E as <- <- <-. apply IH in E1 as (V1 & N1 & L1 & S1); auto. split; [exact V1|]. split; [exact N1|]. split; [constructor; [lia|exact L1]|].
      intros e e' m A. specialize (S1 e e' m A). cbn [map fst gets]. destruct (run_ops o e' m) as [[e1 m1]|].
      * destruct S1 as (-> & A2 & K2 & G2). split; [reflexivity|]. split; [exact A2|]. split; [exact K2|]. rewrite K2 by exact Lv. now rewrite G2.
      * rewrite S1. unfold obind. now destruct (get e' (fst v)).
    + destruct (adjust_values vs ds b _) as [[[o us] s1]|] eqn:E1; [|discriminate]. injection E as E2 E3 E4. eapply CAST; [reflexivity|rewrite <- E2, <- E3, <- E4; reflexivity].
    + destruct (adjust_values vs ds b _) as [[[o us] s1]|] eqn:E1; [|discriminate]. injection E as E2 E3 E4. eapply CAST; [reflexivity|rewrite <- E2, <- E3, <- E4; reflexivity].
    + destruct (adjust_values vs ds b _) as [[[o us] s1]|] eqn:E1; [|discriminate]. injection E as E2 E3 E4. eapply CAST; [reflexivity|rewrite <- E2, <- E3, <- E4; reflexivity].
Qed.
Lemma adjust_state vs ds b st ops ws st' : ok st -> Forall (fun v => fst v < next st) vs -> adjust_values vs ds b st = Some (ops, ws, st') -> ok st' /\ grows st st'.
Proof.
  intros O L E. destruct (adjust_sim vs ds b st ops ws st' O L E) as (V & N & _). split; [split; rewrite V; try apply O; intros j v K; apply (ok_low st O) in K; lia|]. split; [exact N|]. exists []. split; [exact V|intros ? ? []].
Qed.

(** ** Parameters of blocks *)
Record agree_with (rest : list (nat * nat)) (st : state) (e e' : env) : Prop :=
  { w_same : forall j v, In (j, v) (value_map st) -> get e j = get e' (fst v); w_rest : forall j a, In (j, a) rest -> get e j = get e' a /\ get e' a <> None;
    w_jit : forall j, get e j <> None -> (exists v, In (j, v) (value_map st)) \/ In j (map fst rest); w_mlir : forall k, get e' k <> None -> k < next st }.
Lemma params_keys params : forall args types st ops st', map_params params args types st = Some (ops, st') -> NoDup (map fst params) /\ forall j v, In j (map fst params) -> ~ In (j, v) (value_map st).
Proof.
  induction params as [|[j t] params IH]; intros args types st ops st' E.
  - split; [constructor|intros ? ? []].
  - destruct args as [|a args], types as [|d types]; try discriminate. cbn [map_params adjust_values] in E. unfold obind in E. destruct (adjust (snd a) d false) as [x|]; [|discriminate].
    assert (X : exists u st1, value_map st1 = value_map st /\ match map_value j u st1 with Some st2 => match map_params params args types st2 with Some _ => True | None => False end | None => False end).
    { destruct x; cbn in E; (match type of E with context [map_value j ?u ?s] => exists u, s end); (split; [reflexivity|]); (destruct (map_value _ _ _) as [st2|]; [|discriminate]); (destruct (map_params _ _ _ _) as [[? ?]|]; [exact Logic.I|discriminate]). }
    destruct X as (u & st1 & V & X). unfold map_value in X. destruct (find_value st1 j) eqn:F; [destruct X|]. pose proof (proj1 (find_value_none st1 j) F) as F'. destruct (map_params _ _ _ _) as [[o s]|] eqn:M; [|destruct X]. apply IH in M as [N1 N2]. cbn in N2. split.
    + cbn. constructor; [|exact N1]. intros K. apply (N2 j u K). now left.
    + intros k v [E'|K] K'; [cbn in E'; subst k; rewrite <- V in K'; now apply F' in K'|]. apply (N2 k v K). right. now rewrite V.
Qed.
Lemma params_sim params : forall args types st ops st', ok st -> NoDup (map fst args) -> (forall a, In a args -> fst a < next st /\ forall j v, In (j, v) (value_map st) -> fst v <> fst a) -> map_params params args types st = Some (ops, st') ->
  ok st' /\ next st <= next st' /\ List.length params = List.length args /\ (exists new, value_map st' = new ++ value_map st /\ forall j v, In (j, v) new -> In v args \/ next st <= fst v) /\
  forall e e' m, agree_with (combine (map fst params) (map fst args)) st e e' -> exists e1, run_ops ops e' m = Some (e1, m) /\ agree st' e e1.
Proof.
  induction params as [|[j t] params IH]; intros args types st ops st' O ND LO E; destruct args as [|a args], types as [|d types]; try discriminate.
  - cbn in E. injection E as <- <-. split; [exact O|]. split; [lia|]. split; [reflexivity|]. split; [exists []; split; [reflexivity|intros ? ? []]|]. intros e e' m [A B C D]. exists e'. split; [reflexivity|]. split; auto. intros k K. destruct (C k K) as [H|[]]; exact H.
  - cbn [map_params adjust_values] in E. unfold obind in E. destruct (adjust (snd a) d false) as [x|]; [|discriminate]. inversion ND as [|? ? ND1 ND2]; subst. destruct (LO a (or_introl eq_refl)) as [La Na].
    assert (CAST : forall o st1 st2, map_value j (next st, d) {| next := S (next st); value_map := value_map st |} = Some st1 -> map_params params args types st1 = Some (o, st2) -> (ops, st') = (MOp (MCast x) [a] [(next st, d)] [] :: o, st2) ->
      ok st' /\ next st <= next st' /\ List.length ((j, t) :: params) = List.length (a :: args) /\ (exists new, value_map st' = new ++ value_map st /\ forall k v, In (k, v) new -> In v (a :: args) \/ next st <= fst v) /\
      forall e e' m, agree_with (combine (map fst ((j, t) :: params)) (map fst (a :: args))) st e e' -> exists e1, run_ops ops e' m = Some (e1, m) /\ agree st' e e1).
    { intros o st1 st2 M P Q. injection Q as -> ->. apply map_value_ok in M as (O1 & N1 & V1 & K1); [|apply ok_next; auto|cbn; lia|cbn; intros k u K; apply (ok_low st O) in K; lia]. cbn [next value_map] in N1, V1.
      apply IH in P as (O2 & N2 & L2 & (new & V2 & W2) & S2); auto.
      - split; [exact O2|]. split; [lia|]. split; [exact (f_equal S L2)|]. split.
        + exists (new ++ [(j, (next st, d))]). split; [rewrite V2, V1, <- app_assoc; reflexivity|]. intros k v K. apply in_app_or in K as [K|[K|[]]]; [apply W2 in K as [K|K]; [left; now right|right; lia]|injection K as <- <-; right; cbn; lia].
        + intros e e' m [A B C D]. destruct (B j (fst a) (or_introl eq_refl)) as [B1 B2]. destruct (get e' (fst a)) as [y|] eqn:G; [|now contradiction B2].
          assert (Z1 : forall k, k <> next st -> get ((next st, y) :: e') k = get e' k) by (intros k K; rewrite get_cons; destruct (next st =? k) eqn:Q; [apply Nat.eqb_eq in Q; congruence|reflexivity]).
          cbn [run_ops run_op map fst gets]. rewrite G. cbn [obind store bind].
          destruct (S2 e ((next st, y) :: e') m) as (e1 & R & AG); [|exists e1; auto]. split.
          * intros k v K. rewrite V1 in K. destruct K as [K|K]; [injection K as <- <-; cbn [fst]; rewrite get_cons, Nat.eqb_refl; exact B1|]. rewrite Z1 by (apply (ok_low st O) in K; lia). now apply A.
          * intros k b K. assert (In b (map fst args)) as Kb by (apply in_combine_r in K; exact K). apply in_map_iff in Kb as (u & <- & Ku). destruct (LO u (or_intror Ku)) as [Lu _]. rewrite Z1 by lia. apply B. now right.
          * intros k K. destruct (C k K) as [[v V]|[K'|K']]; [left; exists v; rewrite V1; now right|left; cbn in K'; subst k; exists (next st, d); rewrite V1; now left|now right].
          * intros k. rewrite get_cons. rewrite N1. destruct (next st =? k) eqn:Q; [apply Nat.eqb_eq in Q; lia|]. intros K. apply D in K. lia.
      - intros b K. destruct (LO b (or_intror K)) as [Lb Nb]. rewrite N1, V1. split; [lia|]. intros k v [K'|K']; [injection K' as <- <-; cbn; lia|eauto]. }
    destruct x.
    + cbn in E. destruct (map_value j a st) as [st1|] eqn:M; [|discriminate]. destruct (map_params _ _ _ _) as [[o st2]|] eqn:P; [|discriminate]. injection E as <- <-. apply map_value_ok in M as (O1 & N1 & V1 & K1); auto.
      apply IH in P as (O2 & N2 & L2 & (new & V2 & W2) & S2); auto.
      * split; [exact O2|]. split; [lia|]. split; [exact (f_equal S L2)|]. split.
        { exists (new ++ [(j, a)]). split; [rewrite V2, V1, <- app_assoc; reflexivity|]. intros k v K. apply in_app_or in K as [K|[K|[]]]; [apply W2 in K as [K|K]; [left; now right|right; lia]|injection K as <- <-; left; now left]. }
        intros e e' m [A B C D]. apply S2. split; auto.
        { intros k v K. rewrite V1 in K. destruct K as [K|K]; [injection K as <- <-; apply B; now left|auto]. }
        { intros k b K. apply B. now right. }
        { intros k K. destruct (C k K) as [[v V]|[K'|K']]; [left; exists v; rewrite V1; now right|left; cbn in K'; subst k; exists a; rewrite V1; now left|now right]. }
        { intros k K. rewrite N1. auto. }
      * intros b K. destruct (LO b (or_intror K)) as [Lb Nb]. rewrite N1, V1. split; [lia|]. intros k v [K'|K']; [injection K' as <- <-|eauto]. intros Q. apply ND1. rewrite Q. now apply in_map.
    + cbn in E. destruct (map_value j _ _) as [st1|] eqn:M; [|discriminate]. destruct (map_params _ _ _ _) as [[o st2]|] eqn:P; [|discriminate]. injection E as E1 E2. eapply CAST; [reflexivity|exact P|rewrite <- E1, <- E2; reflexivity].
    + cbn in E. destruct (map_value j _ _) as [st1|] eqn:M; [|discriminate]. destruct (map_params _ _ _ _) as [[o st2]|] eqn:P; [|discriminate]. injection E as E1 E2. eapply CAST; [reflexivity|exact P|rewrite <- E1, <- E2; reflexivity].
    + cbn in E. destruct (map_value j _ _) as [st1|] eqn:M; [|discriminate]. destruct (map_params _ _ _ _) as [[o st2]|] eqn:P; [|discriminate]. injection E as E1 E2. eapply CAST; [reflexivity|exact P|rewrite <- E1, <- E2; reflexivity].
Qed.
(** The beginning of a block *)
Lemma create_block_sim opts params arg_types st args ops st' : ok st -> create_block opts params arg_types st = Some (args, ops, st') ->
  ok st' /\ grows st st' /\ forall xs e e' m, agree st e e' ->
    match bind (map fst params) xs e, bind (map fst args) xs e' with
    | Some e1, Some e1' => exists e2, run_ops ops e1' m = Some (e2, m) /\ agree st' e1 e2
    | None, None => True
    | _, _ => False
    end.
Proof.
  intros O E. unfold create_block, obind in E. destruct (output_types opts params) as [types|]; [|discriminate]. set (ats := match arg_types with None => types | Some l => l end) in *. destruct (_ =? _); [|discriminate]. destruct (fresh ats st) as [vs st1] eqn:F. destruct (map_params params vs types st1) as [[o st2]|] eqn:M; [|discriminate]. injection E as <- <- <-.
  apply fresh_spec in F as (A & B & C & D).
  assert (LO : forall v, In v vs -> next st <= fst v < next st1). { intros v K. apply (in_map fst) in K. rewrite D in K. apply in_seq in K. lia. }
  assert (O1 : ok st1) by (destruct O as [K1 K2 K3]; split; rewrite ?A; auto; intros j v K; apply K3 in K; lia).
  assert (ND : NoDup (map fst vs)) by (rewrite D; apply seq_NoDup).
  destruct (params_keys _ _ _ _ _ _ M) as [NP KP].
  destruct (params_sim params vs types st1 o st2 O1 ND) as (O2 & N2 & L2 & (new & V2 & W2) & S2); auto.
  - intros a K. apply LO in K. split; [lia|]. intros j v K'. rewrite A in K'. apply (ok_low st O) in K'. lia.
  - split; [exact O2|]. split.
    + split; [lia|]. exists new. rewrite A in V2. split; [exact V2|]. intros j v K. apply W2 in K as [K|K]; [apply LO in K; lia|lia].
    + intros xs e e' m AG. destruct (bind_both (map fst params) (map fst vs) xs e e') as [(e1 & e1' & X & X')|[X X']]; [rewrite !map_length; exact L2| |now rewrite X, X']. rewrite X, X'. apply S2.
      destruct (bind_pairs _ _ xs e e' e1 e1' NP ND X X') as (P & Q & Q'). destruct AG as [A1 B1 C1]. split.
      * intros j v K. rewrite A in K. rewrite Q, Q'; [now apply A1| |].
        { intros J. apply in_map_iff in J as (u & U & J). apply LO in J. apply (ok_low st O) in K. lia. }
        { intros J. apply (KP j v J). now rewrite A. }
      * exact P.
      * intros j K. destruct (in_dec Nat.eq_dec j (map fst params)) as [J|J].
        { right. rewrite fst_combine by (rewrite !map_length; exact L2). exact J. }
        { left. rewrite Q in K by exact J. rewrite A. now apply B1. }
      * intros k K. destruct (in_dec Nat.eq_dec k (map fst vs)) as [J|J]; [apply in_map_iff in J as (u & <- & J); now apply LO in J|]. rewrite Q' in K by exact J. apply C1 in K. lia.
Qed.
(** The end of a block *)
Lemma terminator_sim t types vs st ops st' : ok st -> Forall (fun v => fst v < next st) vs -> create_terminator t types vs st = Some (ops, st') ->
  ok st' /\ grows st st' /\ exists casts ws, ops = casts ++ [MOp (MNamed t NoAttr) ws [] []] /\ forall e e' m, agree st e e' -> obind (run_ops casts e' m) (fun p => obind (gets (fst p) (map fst ws)) (fun ys => Some (ys, snd p))) = obind (gets e' (map fst vs)) (fun ys => Some (ys, m)).
Proof.
  intros O L E. unfold create_terminator, obind in E. destruct (adjust_values vs types false st) as [[[c ws] s1]|] eqn:AV; [|discriminate]. injection E as <- <-. destruct (adjust_state _ _ _ _ _ _ _ O L AV) as [O1 G1]. split; [exact O1|]. split; [exact G1|]. exists c, ws. split; [reflexivity|].
  intros e e' m A. destruct (adjust_sim _ _ _ _ _ _ _ O L AV) as (_ & _ & _ & S1). specialize (S1 e e' m A). unfold obind. destruct (run_ops c e' m) as [[e1 m1]|]; [|now rewrite S1]. destruct S1 as (-> & _ & _ & G). cbn [fst snd]. now rewrite G.
Qed.
End Sim.

(** ** Nodes and blocks *)
Section Import.
Context {val mem : Type} (w : world val mem) (fuel : nat) (opts : options) (registered : RegistryModel.text -> bool) (object_type : nat -> option ty).
Notation env := (@env val).
Notation imp_node := (import_node opts registered object_type).
Notation imp_block := (import_block opts registered object_type).
Definition import_nodes := fix import_nodes (l : list node) (st : state) : option (list mop * state) :=
  match l with
  | [] => Some ([], st)
  | n :: r => do (ops, st) <- imp_node n st; do (ops', st) <- import_nodes r st; Some (ops ++ ops', st)
  end.
Lemma import_block_eq params nodes returns at_ t types st : imp_block (Block params nodes returns) at_ t types st =
  (do (args, casts, st) <- create_block opts params at_ st; do (ops, st) <- import_nodes nodes st; do yielded <- lookup_values st returns; do (last, st) <- create_terminator t types yielded st; Some (MBlock args (casts ++ ops ++ last), st)).
Proof. reflexivity. Qed.
Definition jit_nodes := fix jit_nodes (l : list node) (e : env) (m : mem) : option (env * mem) := match l with [] => Some (e, m) | n :: r => do (e, m) <- jit_node w fuel n e m; jit_nodes r e m end.
Lemma jit_block_eq params nodes returns args (e : env) m : jit_block w fuel (Block params nodes returns) args e m = (do e <- bind (map fst params) args e; do (e, m) <- jit_nodes nodes e m; do ys <- gets e returns; Some (ys, m)).
Proof. reflexivity. Qed.
Definition leaf_meaning (o : opcode) (xs : list val) (m : mem) : option (list val * mem) :=
  match o with MSchema c => torch_operator w c xs m | MObject x => Some ([literal_value w (LObject x)], m) | MCast _ => Some (xs, m) | MNamed name a => run_leaf w name a xs m end.
Lemma run_leaf_op o ins results (e : env) m : run_op w fuel (MOp o ins results []) e m = obind (gets e (map fst ins)) (fun xs => store (map fst results) e (leaf_meaning o xs m)).
Proof. destruct o as [c|name []|x|a]; reflexivity. Qed.
Lemma sim_grows st st' (r r' : option (env * mem)) : ok st' -> grows st st' -> sim st r r' -> sim st' r r'.
Proof. intros O G. destruct r as [[e m]|], r' as [[e' m']|]; cbn; auto. intros [A B]. split; [exact A|]. now apply (agree_grows st). Qed.
Lemma obind_eta {A B C} (r : option (A * B)) (f : A * B -> option C) : (do (e, m) <- r; f (e, m)) = obind r f.
Proof. destruct r as [[a b]|]; reflexivity. Qed.

Lemma results_sim types outs st vs st1 st' : ok st -> fresh types st = (vs, st1) -> map_results outs vs st1 = Some st' ->
  ok st' /\ grows st st' /\ map snd vs = types /\ forall (e e' : env) (r : option (list val * mem)), agree st' e e' -> sim st' (store (map fst outs) e r) (store (map fst vs) e' r).
Proof.
  intros O F M. destruct (results_ok _ _ _ _ _ _ O F M) as (O1 & G1 & N1 & T1 & S1 & L1 & V1). split; [exact O1|]. split; [exact G1|]. split; [exact T1|]. intros e e' r A. eapply store_sim; [exact O1|rewrite map_length; exact L1|exact V1| | |exact A].
  - intros v K. apply (in_map fst) in K. rewrite S1 in K. apply in_seq in K. lia.
  - rewrite S1. apply seq_NoDup.
Qed.
Lemma create_sim o vs types outs st ops st' : ok st -> create_and_map o vs types outs st = Some (ops, st') ->
  ok st' /\ grows st st' /\ exists results, ops = [MOp o vs results []] /\ map snd results = types /\
  forall (e e' : env) m, agree st e e' -> sim st' (obind (gets e' (map fst vs)) (fun xs => store (map fst outs) e (leaf_meaning o xs m))) (run_ops w fuel ops e' m).
Proof.
  intros O E. unfold create_and_map, obind in E. destruct (fresh types st) as [results st1] eqn:F. destruct (map_results outs results st1) as [st2|] eqn:M; [|discriminate]. injection E as <- <-. destruct (results_sim _ _ _ _ _ _ O F M) as (O1 & G1 & T1 & S1). split; [exact O1|]. split; [exact G1|]. exists results. split; [reflexivity|]. split; [exact T1|].
  intros e e' m A. cbn [run_ops]. rewrite run_leaf_op. unfold obind at 1 3. destruct (gets e' (map fst vs)) as [xs|]; [|exact Logic.I]. specialize (S1 e e' (leaf_meaning o xs m) (agree_grows _ _ _ _ O1 G1 A)). destruct (store (map fst results) e' _) as [[e1 m1]|]; exact S1.
Qed.
Lemma casts_sim vs ds b st casts ws st1 o pre types outs ops st' : ok st -> Forall (fun v => fst v < next st) pre -> Forall (fun v => fst v < next st) vs -> adjust_values vs ds b st = Some (casts, ws, st1) -> create_and_map o (pre ++ ws) types outs st1 = Some (ops, st') ->
  ok st' /\ grows st st' /\ forall (e e' : env) m, agree st e e' -> sim st' (obind (gets e' (map fst (pre ++ vs))) (fun xs => store (map fst outs) e (leaf_meaning o xs m))) (run_ops w fuel (casts ++ ops) e' m).
Proof.
  intros O LP LV AV C. destruct (adjust_state w fuel _ _ _ _ _ _ _ O LV AV) as [O1 G1]. destruct (create_sim _ _ _ _ _ _ _ O1 C) as (O2 & G2 & results & -> & T2 & S2). split; [exact O2|]. split; [now apply (grows_trans _ st1)|]. intros e e' m A. destruct (adjust_sim w fuel _ _ _ _ _ _ _ O LV AV) as (_ & _ & _ & S1). specialize (S1 e e' m A). rewrite run_app. unfold obind at 2. destruct (run_ops w fuel casts e' m) as [[e1 m1]|].
  - destruct S1 as (-> & A1 & K1 & GW). cbn [fst snd]. specialize (S2 e e1 m A1). rewrite map_app, gets_app, GW in S2. rewrite map_app, gets_app. assert (gets e1 (map fst pre) = gets e' (map fst pre)) as GP.
    { apply gets_same. clear - LP K1. induction LP as [|u us L _ IH]; constructor; [now apply K1|exact IH]. } rewrite GP in S2. exact S2.
  - rewrite map_app, gets_app, S1. unfold obind. destruct (gets e' (map fst pre)); exact Logic.I.
Qed.

Lemma deal_gets (e : env) : forall n (vs ks us : list value), List.length vs <= n -> deal vs = Some (ks, us) ->
  match gets e (map fst ks), gets e (map fst us) with
  | Some a, Some b => exists xs, gets e (map fst vs) = Some xs /\ interleave a b = Some xs /\ List.length a = List.length b
  | _, _ => gets e (map fst vs) = None
  end.
Proof.
  induction n as [|n IH]; intros [|k [|v vs]] ks us L E; try discriminate; cbn in L; try lia.
  - injection E as <- <-. cbn. exists []. auto.
  - injection E as <- <-. cbn. exists []. auto.
  - cbn [deal] in E. unfold obind in E. destruct (deal vs) as [[a b]|] eqn:D; [|discriminate]. injection E as <- <-. apply IH in D; [|lia]. cbn [map gets]. unfold obind. destruct (get e (fst k)) as [x|]; [|reflexivity]. destruct (gets e (map fst a)) as [p|].
    + destruct (get e (fst v)) as [y|]; [|reflexivity]. destruct (gets e (map fst b)) as [q|]; [|now rewrite D]. destruct D as (xs & G & I1 & L1). rewrite G. exists (x :: y :: xs). split; [reflexivity|]. cbn [interleave obind]. rewrite I1. cbn. auto.
    + destruct (get e (fst v)); [|reflexivity]. now rewrite D.
Qed.
Lemma entries_app {A} (a b : list A) : List.length a = List.length b -> entries (a ++ b) = interleave a b.
Proof.
  intros L. unfold entries. rewrite app_length, <- L. replace (List.length a + List.length a) with (2 * List.length a) by lia. rewrite Nat.div2_double, firstn_app, firstn_all, Nat.sub_diag, firstn_O, app_nil_r, skipn_app, skipn_all, Nat.sub_diag. reflexivity.
Qed.
Lemma rearrange_gets (e : env) (vs ws : list value) : rearrange vs = Some ws -> obind (gets e (map fst ws)) entries = gets e (map fst vs).
Proof.
  unfold rearrange, obind. destruct (deal vs) as [[ks us]|] eqn:D; [|discriminate]. intros E. injection E as <-. apply (deal_gets e _ _ _ _ (Nat.le_refl _)) in D. rewrite map_app, gets_app. unfold obind, value in *. destruct (gets e (map fst ks)) as [a|]; [|symmetry; exact D]. destruct (gets e (map fst us)) as [b|]; [|symmetry; exact D]. destruct D as (xs & G & I1 & L1). now rewrite entries_app, I1, G.
Qed.

Definition node_good (n : node) : Prop := forall st ops st', ok st -> imp_node n st = Some (ops, st') -> ok st' /\ grows st st' /\ forall (e e' : env) m, agree st e e' -> sim st' (jit_node w fuel n e m) (run_ops w fuel ops e' m).
Definition block_good (b : block) : Prop := forall at_ t types st mb st', ok st -> imp_block b at_ t types st = Some (mb, st') -> ok st' /\ grows st st' /\ forall args (e e' : env) m, agree st e e' -> run_block w fuel mb t args e' m = jit_block w fuel b args e m.

Lemma nodes_good l : Forall node_good l -> forall st ops st', ok st -> import_nodes l st = Some (ops, st') -> ok st' /\ grows st st' /\ forall (e e' : env) m, agree st e e' -> sim st' (jit_nodes l e m) (run_ops w fuel ops e' m).
Proof.
  induction 1 as [|n l N _ IH]; intros st ops st' O E; cbn [import_nodes] in E.
  - injection E as <- <-. split; [exact O|]. split; [apply grows_refl|]. intros e e' m A. cbn. auto.
  - unfold obind in E. destruct (imp_node n st) as [[o s1]|] eqn:E1; [|discriminate]. fold import_nodes in E. destruct (import_nodes l s1) as [[o2 s2]|] eqn:E2; [|discriminate]. injection E as <- <-. destruct (N _ _ _ O E1) as (O1 & G1 & S1). destruct (IH _ _ _ O1 E2) as (O2 & G2 & S2). split; [exact O2|]. split; [now apply (grows_trans _ s1)|].
    intros e e' m A. rewrite run_app. cbn [jit_nodes]. specialize (S1 e e' m A). unfold obind. destruct (jit_node w fuel n e m) as [[e1 m1]|], (run_ops w fuel o e' m) as [[e1' m1']|]; cbn in S1; try contradiction; [|exact Logic.I]. destruct S1 as [-> A1]. apply S2. exact A1.
Qed.
Lemma block_case params nodes returns : Forall node_good nodes -> block_good (Block params nodes returns).
Proof.
  intros H at_ t types st mb st' O E. rewrite import_block_eq in E. unfold obind in E. destruct (create_block opts params at_ st) as [[[args casts] s1]|] eqn:C; [|discriminate]. destruct (import_nodes nodes s1) as [[ops s2]|] eqn:N; [|discriminate]. destruct (lookup_values s2 returns) as [ys|] eqn:L; [|discriminate]. destruct (create_terminator t types ys s2) as [[last s3]|] eqn:T; [|discriminate]. injection E as <- <-.
  destruct (create_block_sim w fuel _ _ _ _ _ _ _ O C) as (O1 & G1 & S1). destruct (nodes_good _ H _ _ _ O1 N) as (O2 & G2 & S2). pose proof (lookup_low _ _ _ O2 L) as LL. destruct (terminator_sim w fuel _ _ _ _ _ _ O2 LL T) as (O3 & G3 & tc & ws & -> & S3). split; [exact O3|]. split; [eapply grows_trans; [exact G1|eapply grows_trans; eassumption]|].
  intros xs e e' m A. rewrite !app_assoc, run_block_ends, jit_block_eq. specialize (S1 xs e e' m A). destruct (bind (map fst params) xs e) as [e1|], (bind (map fst args) xs e') as [e1'|]; try contradiction; [|reflexivity]. cbn [obind]. destruct S1 as (e2 & R & A1). rewrite !run_app, R. cbn [obind fst snd]. specialize (S2 e1 e2 m A1).
  destruct (jit_nodes nodes e1 m) as [[e3 m3]|], (run_ops w fuel ops e2 m) as [[e3' m3']|]; cbn in S2; try contradiction; [|reflexivity]. destruct S2 as [-> A2]. cbn [obind fst snd]. rewrite (S3 e3 e3' m3' A2). now rewrite (lookup_gets _ _ _ _ _ A2 L).
Qed.

Context (F : faithful w registered).
Lemma schema_case name overload ins outs : node_good (NSchema name overload ins outs).
Proof.
  intros st ops st' O E. cbn [import_node] in E. unfold obind in E. destruct (output_types opts outs) as [types|]; [|discriminate]. destruct (lookup_values st ins) as [vs|] eqn:L; [|discriminate]. destruct (create_operation registered name overload) as [c|] eqn:C; [|discriminate].
  destruct (create_sim _ _ _ _ _ _ _ O E) as (O1 & G1 & results & _ & _ & S1). split; [exact O1|]. split; [exact G1|]. intros e e' m A. specialize (S1 e e' m A). cbn [jit_node]. rewrite (lookup_gets _ _ _ _ _ A L). unfold obind in *. destruct (gets e' (map fst vs)) as [xs|]; [|exact S1]. cbn [leaf_meaning] in S1. now rewrite (F name overload c xs m C) in S1.
Qed.
Lemma plain_case p name ins outs st vs types ops st' : ok st -> lookup_values st ins = Some vs -> In p [Enter; Exit; ListUnpack; ListConstruct; CreateObject] -> create_and_map (MNamed (String.append "torch.prim." (unqual p)) NoAttr) vs types outs st = Some (ops, st') ->
  ok st' /\ grows st st' /\ forall (e e' : env) m, agree st e e' -> sim st' (jit_node w fuel (NPrim p name ins outs) e m) (run_ops w fuel ops e' m).
Proof.
  intros O L P E. destruct (create_sim _ _ _ _ _ _ _ O E) as (O1 & G1 & results & _ & _ & S1). split; [exact O1|]. split; [exact G1|]. intros e e' m A. specialize (S1 e e' m A). cbn [jit_node]. rewrite (lookup_gets _ _ _ _ _ A L). unfold obind in *. destruct (gets e' (map fst vs)) as [xs|]; [|exact S1].
  destruct P as [<-|[<-|[<-|[<-|[<-|[]]]]]]; exact S1.
Qed.
Lemma named_case p name ins outs st vs types ops st' : ok st -> lookup_values st ins = Some vs -> In p [Load; Store; GetAttr; SetAttr] -> create_and_map (MNamed (String.append "torch.prim." (unqual p)) (NameAttr name)) vs types outs st = Some (ops, st') ->
  ok st' /\ grows st st' /\ forall (e e' : env) m, agree st e e' -> sim st' (jit_node w fuel (NPrim p name ins outs) e m) (run_ops w fuel ops e' m).
Proof.
  intros O L P E. destruct (create_sim _ _ _ _ _ _ _ O E) as (O1 & G1 & results & _ & _ & S1). split; [exact O1|]. split; [exact G1|]. intros e e' m A. specialize (S1 e e' m A). cbn [jit_node]. rewrite (lookup_gets _ _ _ _ _ A L). unfold obind in *. destruct (gets e' (map fst vs)) as [xs|]; [|exact S1].
  destruct P as [<-|[<-|[<-|[<-|[]]]]]; exact S1.
Qed.
Lemma prim_case p name ins outs : node_good (NPrim p name ins outs).
Proof.
  intros st ops st' O E. cbn [import_node] in E.
  destruct p; unfold obind in E.
  1-5: destruct (lookup_values st ins) as [vs|] eqn:L; [|discriminate]; destruct (output_types opts outs) as [types|]; [|discriminate]; eapply plain_case; [exact O|exact L| |exact E]; cbn; tauto.
  - destruct outs as [|[j t] outs]; [discriminate|]. destruct t as [ | | | | | | | | | | |contained| | | | |]; try discriminate. destruct outs; [|discriminate].
    destruct (types_from_values opts contained) as [cs|]; [|discriminate]. destruct (lookup_values st ins) as [vs|] eqn:L; [|discriminate]. destruct (output_types opts _) as [types|]; [|discriminate]. destruct (adjust_values vs cs true st) as [[[casts ws] s1]|] eqn:AV; [|discriminate]. destruct (create_and_map _ _ _ _ _) as [[o s2]|] eqn:C; [|discriminate]. injection E as <- <-.
    change ws with ([] ++ ws) in C. destruct (casts_sim _ _ _ _ _ _ _ _ _ _ _ _ _ O (Forall_nil _) (lookup_low _ _ _ O L) AV C) as (O1 & G1 & S1). split; [exact O1|]. split; [exact G1|]. intros e e' m A. specialize (S1 e e' m A). cbn [jit_node]. rewrite (lookup_gets _ _ _ _ _ A L). cbn [app] in S1. unfold obind in *. destruct (gets e' (map fst vs)) as [xs|]; exact S1.
  - destruct (lookup_values st ins) as [vs|] eqn:L; [|discriminate]; destruct (output_types opts outs) as [types|]; [|discriminate]. destruct (rearrange vs) as [ws|] eqn:R; [|discriminate].
    destruct (create_sim _ _ _ _ _ _ _ O E) as (O1 & G1 & results & _ & _ & S1). split; [exact O1|]. split; [exact G1|]. intros e e' m A. specialize (S1 e e' m A). cbn [jit_node]. rewrite (lookup_gets _ _ _ _ _ A L). pose proof (rearrange_gets e' _ _ R) as RG. unfold obind in *. destruct (gets e' (map fst ws)) as [xs|].
    + cbn [leaf_meaning] in S1. unfold run_leaf in S1. cbn -[entries store run_ops] in S1. rewrite RG in S1. destruct (gets e' (map fst vs)) as [ys|]; [|exact S1]. exact S1.
    + rewrite <- RG. exact S1.
  - destruct (output_types opts outs) as [types|]; [|discriminate]. destruct (lookup_values st ins) as [vs|] eqn:L; [|discriminate]. eapply named_case; [exact O|exact L| |exact E]; cbn; tauto.
  - destruct (output_types opts outs) as [types|]; [|discriminate]. destruct (lookup_values st ins) as [vs|] eqn:L; [|discriminate]. eapply named_case; [exact O|exact L| |exact E]; cbn; tauto.
  - destruct (output_types opts outs) as [types|]; [|discriminate]. destruct (lookup_values st ins) as [vs|] eqn:L; [|discriminate]. eapply named_case; [exact O|exact L| |exact E]; cbn; tauto.
  - destruct (output_types opts outs) as [types|]; [|discriminate]. destruct (lookup_values st ins) as [vs|] eqn:L; [|discriminate]. eapply named_case; [exact O|exact L| |exact E]; cbn; tauto.
Qed.
Lemma constant_meaning c o t : constant_op opts object_type c = Some (o, t) -> exists l, literal_of c = Some l /\ forall m, leaf_meaning o [] m = Some ([literal_value w l], m).
Proof.
  destruct c; cbn [constant_op literal_of]; unfold obind; intros E.
  1-5: injection E as <- <-; eexists; split; reflexivity.
  - destruct (elements_attr s) as [[el c]|] eqn:L; [|discriminate]. apply C119_literals in L as (_ & r & R & _ & T). rewrite R. injection E as <- <-. subst el. eexists; split; [reflexivity|]. intros m. destruct (assume_value_semantics opts); reflexivity.
  - injection E as <- <-; eexists; split; reflexivity.
  - destruct (function_type _ _ _); [|discriminate]. injection E as <- <-; eexists; split; reflexivity.
  - destruct (object_type x); [|discriminate]. injection E as <- <-; eexists; split; reflexivity.
  - discriminate.
Qed.
Lemma constant_case c out : node_good (NConstant c out).
Proof.
  intros st ops st' O E. cbn [import_node] in E. unfold obind in E. destruct (constant_op opts object_type c) as [[o t]|] eqn:C; [|discriminate]. apply constant_meaning in C as (l & L & M). destruct (create_sim _ _ _ _ _ _ _ O E) as (O1 & G1 & results & _ & _ & S1). split; [exact O1|]. split; [exact G1|]. intros e e' m A. specialize (S1 e e' m A). cbn [jit_node]. rewrite L. cbn [map gets obind] in S1. rewrite M in S1. exact S1.
Qed.
Lemma method_case a b c ins outs : node_good (NCallMethod a b c ins outs).
Proof.
  intros st ops st' O E. cbn [import_node] in E. unfold obind in E. destruct (function_type opts b c) as [[ex ?]|]; [|discriminate]. destruct (output_types opts outs) as [types|]; [|discriminate]. destruct (lookup_values st ins) as [vs|] eqn:L; [|discriminate]. destruct (adjust_values vs ex false st) as [[[casts ws] s1]|] eqn:AV; [|discriminate]. destruct (create_and_map _ _ _ _ _) as [[o s2]|] eqn:C; [|discriminate]. injection E as <- <-.
  change ws with ([] ++ ws) in C. destruct (casts_sim _ _ _ _ _ _ _ _ _ _ _ _ _ O (Forall_nil _) (lookup_low _ _ _ O L) AV C) as (O1 & G1 & S1). split; [exact O1|]. split; [exact G1|]. intros e e' m A. specialize (S1 e e' m A). cbn [jit_node]. rewrite (lookup_gets _ _ _ _ _ A L). cbn [app] in S1. unfold obind in *. destruct (gets e' (map fst vs)) as [xs|]; exact S1.
Qed.
Lemma function_case f ps ins outs : node_good (NCallFunction f ps ins outs).
Proof.
  intros st ops st' O E. cbn [import_node] in E. unfold obind in E. destruct (types_from_values opts ps) as [ex|]; [|discriminate]. destruct (output_types opts outs) as [types|]; [|discriminate]. destruct ins as [|callee ins]; [discriminate|]. destruct (lookup_values st ins) as [vs|] eqn:L; [|discriminate]. destruct (adjust_values vs ex false st) as [[[casts ws] s1]|] eqn:AV; [|discriminate].
  cbn [jit_node]. destruct (string_dec f "__torch_mlir_internal_promote_dtypes") as [Q|Q].
  - subst f. rewrite String.eqb_refl in E. destruct (create_and_map _ _ _ _ _) as [[o s2]|] eqn:C; [|discriminate]. injection E as <- <-.
    change ws with ([] ++ ws) in C. destruct (casts_sim _ _ _ _ _ _ _ _ _ _ _ _ _ O (Forall_nil _) (lookup_low _ _ _ O L) AV C) as (O1 & G1 & S1). split; [exact O1|]. split; [exact G1|]. intros e e' m A. specialize (S1 e e' m A). rewrite (lookup_gets _ _ _ _ _ A L). cbn [app] in S1. unfold obind in *. destruct (gets e' (map fst vs)) as [xs|]; exact S1.
  - apply String.eqb_neq in Q. rewrite Q in E. destruct (find_value s1 callee) as [v|] eqn:FV; [|discriminate]. destruct (create_and_map _ _ _ _ _) as [[o s2]|] eqn:C; [|discriminate]. injection E as <- <-.
    destruct (adjust_sim w fuel _ _ _ _ _ _ _ O (lookup_low _ _ _ O L) AV) as (V1 & _). assert (FV' : find_value st callee = Some v) by (unfold find_value in *; now rewrite <- V1). pose proof (find_value_some _ _ _ FV') as KV.
    change (v :: ws) with ([v] ++ ws) in C. assert (LP : Forall (fun v => fst v < next st) [v]) by (constructor; [now apply (ok_low st O callee)|constructor]). destruct (casts_sim _ _ _ _ _ _ _ _ _ _ _ _ _ O LP (lookup_low _ _ _ O L) AV C) as (O1 & G1 & S1). split; [exact O1|]. split; [exact G1|]. intros e e' m A. specialize (S1 e e' m A). rewrite (lookup_gets _ _ _ _ _ A L), (a_same _ _ _ A callee v KV).
    cbn [map app gets] in S1. unfold obind in *. destruct (get e' (fst v)) as [x|], (gets e' (map fst vs)) as [xs|]; exact S1.
Qed.
Lemma iterate_same body body' f : forall i k b (xs : list val) (m : mem), (forall xs m, body xs m = body' xs m) -> iterate w body f i k b xs m = iterate w body' f i k b xs m.
Proof. induction f as [|f IH]; intros i k b xs m H; cbn [iterate]; [reflexivity|]. rewrite H. destruct (b && _); [|reflexivity]. unfold obind. destruct (body' _ m) as [[[|c ys] m1]|]; try reflexivity. destruct (truth w c); [|reflexivity]. now apply IH. Qed.
Lemma import_loop_eq mx cond iters outs body st : imp_node (NLoop (mx :: cond :: iters) outs body) st =
  (do types <- output_types opts outs;
   do vs <- lookup_values st [mx; cond];
   do ws <- lookup_values st iters;
   do (casts, ws, st) <- adjust_values ws types false st;
   let '(results, st) := fresh types st in
   do st <- map_results outs results st;
   do (b, st) <- imp_block body None "torch.prim.Loop.condition" (Atom BoolA :: types) st;
   Some (casts ++ [MOp (MNamed "torch.prim.Loop" NoAttr) (vs ++ ws) results [b]], st)).
Proof. reflexivity. Qed.
Lemma import_if_eq cond outs b1 b2 st : imp_node (NIf [cond] outs b1 b2) st =
  (do types <- output_types opts outs;
   do v <- find_value st cond;
   let '(results, st) := fresh types st in
   do st <- map_results outs results st;
   do (b, st) <- imp_block b1 None "torch.prim.If.yield" types st;
   do (b', st) <- imp_block b2 None "torch.prim.If.yield" types st;
   Some ([MOp (MNamed "torch.prim.If" NoAttr) [v] results [b; b']], st)).
Proof. reflexivity. Qed.
Lemma jit_loop_eq ins outs body (e : env) m : jit_node w fuel (NLoop ins outs body) e m = obind (gets e ins) (fun xs => store (map fst outs) e (loop w fuel (fun xs m => jit_block w fuel body xs e m) xs m)).
Proof. reflexivity. Qed.
Lemma jit_if_eq ins outs b b' (e : env) m : jit_node w fuel (NIf ins outs b b') e m = obind (gets e ins) (fun xs => store (map fst outs) e (conditional w (fun m => jit_block w fuel b [] e m) (fun m => jit_block w fuel b' [] e m) xs m)).
Proof. reflexivity. Qed.
Lemma run_loop_eq ins outs b (e : env) m : run_op w fuel (MOp (MNamed "torch.prim.Loop" NoAttr) ins outs [b]) e m = obind (gets e (map fst ins)) (fun xs => store (map fst outs) e (loop w fuel (fun xs m => run_block w fuel b "torch.prim.Loop.condition" xs e m) xs m)).
Proof. reflexivity. Qed.
Lemma run_if_eq ins outs b b' (e : env) m : run_op w fuel (MOp (MNamed "torch.prim.If" NoAttr) ins outs [b; b']) e m = obind (gets e (map fst ins)) (fun xs => store (map fst outs) e (conditional w (fun m => run_block w fuel b "torch.prim.If.yield" [] e m) (fun m => run_block w fuel b' "torch.prim.If.yield" [] e m) xs m)).
Proof. reflexivity. Qed.
Lemma loop_case ins outs b : block_good b -> node_good (NLoop ins outs b).
Proof.
  intros B st ops st' O E. destruct ins as [|mx [|cond iters]]; [cbn in E; destruct (output_types opts outs); discriminate|cbn in E; destruct (output_types opts outs); discriminate|]. rewrite import_loop_eq in E. unfold obind in E. destruct (output_types opts outs) as [types|]; [|discriminate]. destruct (lookup_values st [mx; cond]) as [vs|] eqn:L; [|discriminate]. destruct (lookup_values st iters) as [us|] eqn:LI; [|discriminate]. destruct (adjust_values us types false st) as [[[casts ws] s1]|] eqn:AV; [|discriminate]. destruct (fresh types s1) as [results s2] eqn:FR. destruct (map_results outs results s2) as [s3|] eqn:M; [|discriminate]. destruct (imp_block b _ _ _ s3) as [[mb s4]|] eqn:IB; [|discriminate]. injection E as <- <-.
  pose proof (lookup_low _ _ _ O LI) as LL. destruct (adjust_state w fuel _ _ _ _ _ _ _ O LL AV) as [O1 G1]. destruct (results_sim _ _ _ _ _ _ O1 FR M) as (O3 & G3 & T3 & S3). destruct (B _ _ _ _ _ _ O3 IB) as (O4 & G4 & S4). split; [exact O4|]. split; [eapply grows_trans; [exact G1|eapply grows_trans; eassumption]|].
  intros e e' m A. destruct (adjust_sim w fuel _ _ _ _ _ _ _ O LL AV) as (_ & _ & _ & S1). specialize (S1 e e' m A). rewrite run_app. rewrite jit_loop_eq. assert (GE : gets e (mx :: cond :: iters) = obind (gets e' (map fst vs)) (fun x => obind (gets e' (map fst us)) (fun y => Some (x ++ y)))).
  { change (mx :: cond :: iters) with ([mx; cond] ++ iters). now rewrite gets_app, (lookup_gets _ _ _ _ _ A L), (lookup_gets _ _ _ _ _ A LI). }
  rewrite GE. clear GE. unfold obind at 4. destruct (run_ops w fuel casts e' m) as [[e1 m1]|].
  - destruct S1 as (-> & A1 & K1 & GW). cbn [run_ops fst snd]. rewrite run_loop_eq. assert (GV : gets e1 (map fst vs) = gets e' (map fst vs)). { apply gets_same. pose proof (lookup_low _ _ _ O L) as LV. clear - LV K1. induction LV as [|u us L _ IH]; constructor; [now apply K1|exact IH]. }
    unfold value in *; rewrite map_app, gets_app, GV, GW. destruct (gets e' (map fst vs)) as [x|]; [|exact Logic.I]. cbn [obind]. destruct (gets e' (map fst us)) as [y|]; [|exact Logic.I]. cbn [obind].
    assert (A3 : agree s3 e e1) by (now apply (agree_grows s1)).
    assert (LP : loop w fuel (fun xs m => run_block w fuel mb "torch.prim.Loop.condition" xs e1 m) (x ++ y) m = loop w fuel (fun xs m => jit_block w fuel b xs e m) (x ++ y) m).
    { unfold loop. destruct (x ++ y) as [|a [|c l]]; try reflexivity. unfold obind. destruct (count w a); [|reflexivity]. destruct (truth w c); [|reflexivity]. apply iterate_same. intros xs m0. now apply S4. }
    rewrite LP. pose proof (sim_grows _ _ _ _ O4 G4 (S3 e e1 (loop w fuel (fun xs m => jit_block w fuel b xs e m) (x ++ y) m) A3)) as R. destruct (store (map fst results) e1 _) as [[e2 m2]|]; exact R.
  - rewrite S1. destruct (gets e' (map fst vs)); exact Logic.I.
Qed.
Lemma if_case ins outs b b' : block_good b -> block_good b' -> node_good (NIf ins outs b b').
Proof.
  intros B B' st ops st' O E. destruct ins as [|cond [|? ?]]; [cbn in E; destruct (output_types opts outs); discriminate| |cbn in E; destruct (output_types opts outs); discriminate]. rewrite import_if_eq in E. unfold obind in E. destruct (output_types opts outs) as [types|]; [|discriminate]. destruct (find_value st cond) as [v|] eqn:L; [|discriminate]. destruct (fresh types st) as [results s2] eqn:FR. destruct (map_results outs results s2) as [s3|] eqn:M; [|discriminate]. destruct (imp_block b _ _ _ s3) as [[mb s4]|] eqn:IB; [|discriminate]. destruct (imp_block b' _ _ _ s4) as [[mb' s5]|] eqn:IB'; [|discriminate]. injection E as <- <-.
  destruct (results_sim _ _ _ _ _ _ O FR M) as (O3 & G3 & T3 & S3). destruct (B _ _ _ _ _ _ O3 IB) as (O4 & G4 & S4). destruct (B' _ _ _ _ _ _ O4 IB') as (O5 & G5 & S5). assert (G35 : grows s3 s5) by (eapply grows_trans; eassumption). split; [exact O5|]. split; [eapply grows_trans; eassumption|].
  intros e e' m A. rewrite jit_if_eq. cbn [run_ops]. rewrite run_if_eq. cbn [map gets]. rewrite (a_same _ _ _ A cond v (find_value_some _ _ _ L)). destruct (get e' (fst v)) as [c|]; [|exact Logic.I]. cbn [obind].
  assert (A3 : agree s3 e e') by (now apply (agree_grows st)). assert (A4 : agree s4 e e') by (now apply (agree_grows s3)).
  assert (CO : conditional w (fun m => run_block w fuel mb "torch.prim.If.yield" [] e' m) (fun m => run_block w fuel mb' "torch.prim.If.yield" [] e' m) [c] m = conditional w (fun m => jit_block w fuel b [] e m) (fun m => jit_block w fuel b' [] e m) [c] m).
  { unfold conditional, obind. destruct (truth w c) as [[|]|]; [now apply S4|now apply S5|reflexivity]. }
  rewrite CO. pose proof (sim_grows _ _ _ _ O5 G35 (S3 e e' (conditional w (fun m => jit_block w fuel b [] e m) (fun m => jit_block w fuel b' [] e m) [c] m) A3)) as R. destruct (store (map fst results) e' _) as [[e2 m2]|]; exact R.
Qed.
Lemma all_good b : block_good b.
Proof. apply (block_tree node_good block_good); [apply schema_case|apply prim_case|apply constant_case|apply loop_case|apply if_case|apply method_case|apply function_case|intros st ops st' _ E; discriminate E|apply block_case]. Qed.
Lemma all_good_node n : node_good n.
Proof. apply (node_tree node_good block_good); [apply schema_case|apply prim_case|apply constant_case|apply loop_case|apply if_case|apply method_case|apply function_case|intros st ops st' _ E; discriminate E|apply block_case]. Qed.
End Import.
