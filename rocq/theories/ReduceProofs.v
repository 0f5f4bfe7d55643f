(** Names, and the runs of operations that are left alone. *)
From Coq Require Import Bool Ascii String PeanoNat Lia List.
From Verif Require Import Prelude ReduceModel ReduceSpec.
Import ListNotations.
Open Scope nat_scope.

(** ** Names *)
Lemma frag_dotless : forall t cur rest, ~ In "."%char t -> fragments_from (t ++ rest) cur = fragments_from rest (cur ++ t).
Proof.
  induction t as [|c t IH]; intros cur rest H; cbn [app fragments_from].
  - rewrite app_nil_r. reflexivity.
  - destruct (Ascii.eqb_spec c "."%char) as [->|E]. { exfalso. apply H. left. reflexivity. }
    rewrite IH by (intros I1; apply H; right; exact I1). rewrite <- app_assoc. reflexivity.
Qed.
Lemma frag_dot cur rest : cur <> [] -> fragments_from ("."%char :: rest) cur = cur :: fragments_from rest [].
Proof. intros H. cbn. destruct cur; [contradiction|reflexivity]. Qed.
Lemma frag_suffixed : forall r cur, cur <> [] -> Forall dotless r -> fragments_from (suffixed r) cur = cur :: r.
Proof.
  induction r as [|t r IH]; intros cur H F; unfold suffixed; cbn [flat_map].
  - cbn. destruct cur; [contradiction|reflexivity].
  - inversion F as [|? ? [T1 T2] F']; subst. cbn [app]. rewrite frag_dot by exact H. rewrite frag_dotless by exact T2. cbn [app]. f_equal. apply IH; assumption.
Qed.
Lemma join_suffixed : forall r t, join_dots (t :: r) = t ++ suffixed r.
Proof.
  induction r as [|u r IH]; intros t.
  - unfold suffixed. cbn. rewrite app_nil_r. reflexivity.
  - change (join_dots (t :: u :: r)) with (t ++ "."%char :: join_dots (u :: r)). rewrite IH. reflexivity.
Qed.
Theorem functional_name name name' : functional name name' -> no_underscore name = Some name'.
Proof.
  intros (a & b & c & r & [A1 A2] & [B1 B2] & [C1 C2] & R & -> & ->). unfold no_underscore, fragments.
  rewrite frag_dotless by exact A2. cbn [app]. rewrite frag_dot by exact A1.
  rewrite frag_dotless by exact B2. cbn [app]. rewrite frag_dot by exact B1.
  rewrite frag_dotless.
  2: { rewrite in_app_iff. intros [I1|[I1|[]]]; [exact (C2 I1)|discriminate]. }
  cbn [app]. rewrite frag_suffixed; [|destruct c; discriminate|exact R].
  rewrite rev_app_distr. cbn [rev app]. rewrite rev_involutive.
  f_equal. change (join_dots (a :: b :: c :: r)) with (a ++ "."%char :: b ++ "."%char :: join_dots (c :: r)). rewrite join_suffixed. reflexivity.
Qed.

(** ** Renamings *)
Definition look (s : renaming) (i : nat) : nat := match find (fun p => fst p =? i) s with Some p => snd p | None => i end.
Lemma rename_fst s v : fst (rename s v) = look s (fst v).
Proof. unfold rename, look. destruct (find _ s); reflexivity. Qed.
Lemma rename_snd s v : snd (rename s v) = snd v.
Proof. unfold rename. destruct (find _ s); reflexivity. Qed.
Lemma rename_nil v : rename [] v = v.
Proof. reflexivity. Qed.
Lemma operands_rename s o : operands (rename_op s o) = map (rename s) (operands o).
Proof. destruct o; reflexivity. Qed.
Lemma results_rename s o : results (rename_op s o) = results o.
Proof. destruct o; reflexivity. Qed.
Lemma look_out s i : ~ In i (map fst s) -> look s i = i.
Proof.
  unfold look. intros H. destruct (find _ s) as [p|] eqn:E; [|reflexivity].
  apply find_some in E. destruct E as [E1 E2]. apply Nat.eqb_eq in E2. exfalso. apply H. rewrite <- E2. apply in_map. exact E1.
Qed.
Lemma look_cases s i : look s i = i \/ In (look s i) (map snd s).
Proof.
  unfold look. destruct (find _ s) as [p|] eqn:E; [|left; reflexivity].
  apply find_some in E. destruct E as [E1 E2]. right. apply in_map. exact E1.
Qed.

Lemma mapM_rel {A B C} (f : A -> option C) (g : B -> option C) (h : A -> B) l xs :
  mapM f l = Some xs -> (forall v x, In v l -> f v = Some x -> g (h v) = Some x) -> mapM g (map h l) = Some xs.
Proof.
  revert xs. induction l as [|v l IH]; intros xs; cbn; [intros H _; exact H|].
  intros H G. destruct (f v) as [x|] eqn:E; [|discriminate]. cbn in H. destruct (mapM f l) as [ys|] eqn:E2; [|discriminate]. cbn in H. injection H as <-.
  rewrite (G v x (or_introl eq_refl) E). cbn. rewrite (IH ys eq_refl (fun u y I1 => G u y (or_intror I1))). reflexivity.
Qed.
Lemma mapM_same {A C} (f g : A -> option C) l : (forall v, In v l -> g v = f v) -> mapM g l = mapM f l.
Proof. induction l as [|v l IH]; intros H; cbn; [reflexivity|]. rewrite (H v (or_introl eq_refl)). rewrite IH by (intros u I1; apply H; right; exact I1). reflexivity. Qed.
Lemma mapM_Forall {A C} (f : A -> option C) (Q : C -> Prop) l xs : mapM f l = Some xs -> (forall v x, In v l -> f v = Some x -> Q x) -> Forall Q xs.
Proof.
  revert xs. induction l as [|v l IH]; intros xs; cbn; [intros [= <-] _; constructor|].
  intros H G. destruct (f v) as [x|] eqn:E; [|discriminate]. cbn in H. destruct (mapM f l) as [ys|] eqn:E2; [|discriminate]. cbn in H. injection H as <-.
  constructor; [exact (G v x (or_introl eq_refl) E)|]. apply (IH ys eq_refl). intros u y I1. apply G. right. exact I1.
Qed.
Lemma mapM_Forall2 {A C} (f : A -> option C) l xs : mapM f l = Some xs -> Forall2 (fun v x => f v = Some x) l xs.
Proof.
  revert xs. induction l as [|v l IH]; intros xs; cbn; [intros [= <-]; constructor|].
  intros H. destruct (f v) as [x|] eqn:E; [|discriminate]. cbn in H. destruct (mapM f l) as [ys|] eqn:E2; [|discriminate]. cbn in H. injection H as <-.
  constructor; [exact E|]. apply IH. reflexivity.
Qed.
Lemma Forall2_mapM {A C} (f : A -> option C) l xs : Forall2 (fun v x => f v = Some x) l xs -> mapM f l = Some xs.
Proof. induction 1 as [|v x l xs E F IH]; cbn; [reflexivity|]. rewrite E. cbn. rewrite IH. reflexivity. Qed.

Lemma upd_eq {A} (f : nat -> option A) n a : upd f n a n = Some a.
Proof. unfold upd. rewrite Nat.eqb_refl. reflexivity. Qed.
Lemma upd_neq {A} (f : nat -> option A) n a k : k <> n -> upd f n a k = f k.
Proof. unfold upd. intros H. destruct (Nat.eqb_spec k n); [contradiction|reflexivity]. Qed.

Section Runs.
Context {content thing : Type} (tr : traits) (w : world content thing).
Notation env := (env content thing). Notation memory := (memory content thing). Notation rt := (rt content thing).

(** ** Reading *)
Lemma fits_kind m m' t (x : rt) : (forall a, x = Ref a -> kind (m' a) = kind (m a)) -> fits m' t x = fits m t x.
Proof.
  intros H. destruct t; try reflexivity. cbn. destruct x as [c|a|y]; try reflexivity.
  specialize (H a eq_refl). destruct (m' a) as [[c|l]|], (m a) as [[c'|l']|]; cbn in H; try discriminate; reflexivity.
Qed.
Lemma read1_agree P m m' (x : rt) : agree P m m' -> below P x -> read1 m' x = read1 m x.
Proof. intros A B. destruct x as [c|a|y]; try reflexivity. cbn. rewrite (A a B). reflexivity. Qed.
Lemma read_agree P m m' (x : rt) : agree P m m' -> closed P m -> below P x -> read m' x = read m x.
Proof.
  intros A C B. destruct x as [c|a|y]; try reflexivity. cbn. rewrite (A a B). destruct (m a) as [[c|l]|] eqn:E; try reflexivity.
  rewrite (mapM_same (read1 m) (read1 m') l); [reflexivity|]. intros v I1. apply (read1_agree P); [exact A|]. exact (proj1 (Forall_forall _ _) (C a l B E) v I1).
Qed.
Lemma reads_agree P m m' (xs : list rt) : agree P m m' -> closed P m -> Forall (below P) xs -> mapM (read m') xs = mapM (read m) xs.
Proof. intros A C B. apply mapM_same. intros v I1. apply (read_agree P); [exact A|exact C|]. exact (proj1 (Forall_forall _ _) B v I1). Qed.
Lemma tensor_at_agree P m m' (x : rt) : agree P m m' -> below P x -> tensor_at m' x = tensor_at m x.
Proof. intros A B. destruct x as [c|a|y]; try reflexivity. cbn. rewrite (A a B). reflexivity. Qed.

(** ** Effects: the results get values, the rest of the environment stays *)
Definition after (P : nat -> Prop) (rs : list nat) (e : env) (m : memory) (e2 : env) (m2 : memory) (e' : env) (m' : memory) (e2' : env) (m2' : memory) : Prop :=
  agree P m2 m2' /\ closed P m2 /\ (forall i, In i rs -> e2' i = e2 i /\ exists x, e2 i = Some x /\ below P x)
  /\ (forall i, ~ In i rs -> e2 i = e i /\ e2' i = e' i) /\ (forall a, ~ In a rs -> kind (m2 a) = kind (m a)).

Lemma agree_upd P m m' n (c : cell content thing) : agree P m m' -> agree P (upd m n c) (upd m' n c).
Proof. intros A a Pa. unfold upd. destruct (a =? n); [reflexivity|apply A; exact Pa]. Qed.
Lemma closed_upd_tensor P m n (c : content) : closed P m -> closed P (upd m n (Tensor (thing := thing) c)).
Proof. intros C a l Pa. unfold upd. destruct (a =? n); [discriminate|]. apply C. exact Pa. Qed.
Lemma closed_upd_items P m n (l : list rt) : closed P m -> Forall (below P) l -> closed P (upd m n (Items (content := content) l)).
Proof. intros C F a k Pa. unfold upd. destruct (a =? n); [intros [= <-]; exact F|]. apply C. exact Pa. Qed.

(** One result *)
Lemma after_one P r (x : rt) e m m2 e' m' m2' : agree P m2 m2' -> closed P m2 -> below P x -> (forall a, a <> r -> kind (m2 a) = kind (m a)) ->
  after P [r] e m (upd e r x) m2 e' m' (upd e' r x) m2'.
Proof.
  intros A C B K. repeat apply conj; try assumption.
  - intros i [<-|[]]. rewrite !upd_eq. split; [reflexivity|]. exists x. split; [reflexivity|exact B].
  - intros i N1. assert (i <> r) by (intros ->; apply N1; left; reflexivity). rewrite !upd_neq by assumption. split; reflexivity.
  - intros a N1. apply K. intros ->. apply N1. left. reflexivity.
Qed.
Lemma after_none P e m m2 e' m' m2' : agree P m2 m2' -> closed P m2 -> (forall a, kind (m2 a) = kind (m a)) -> after P [] e m e m2 e' m' e' m2'.
Proof.
  intros A C K. repeat apply conj; try assumption.
  - intros i [].
  - intros i _. split; reflexivity.
  - intros a _. apply K.
Qed.
Lemma kind_upd_new m r (c : cell content thing) a : a <> r -> kind (upd m r c a) = kind (m a).
Proof. intros N1. rewrite upd_neq by exact N1. reflexivity. Qed.
Lemma put_local (P : nat -> Prop) r d e m e2 m2 e' m' : P (fst r) -> agree P m m' -> closed P m -> put r d e m = Some (e2, m2) ->
  exists e2' m2', put r d e' m' = Some (e2', m2') /\ after P [fst r] e m e2 m2 e' m' e2' m2'.
Proof.
  intros Pr A C. unfold put.
  destruct d as [c|t], (snd r); try discriminate; intros [= <- <-]; eexists; eexists; (split; [reflexivity|]); apply after_one;
    try exact Logic.I; try exact Pr; try assumption; try reflexivity;
    try (apply agree_upd; exact A); try (apply closed_upd_tensor; exact C); try (intros a N1; apply kind_upd_new; exact N1).
Qed.
Lemma after_trans P r rs e m e1 m1 e2 m2 e' m' e1' m1' e2' m2' :
  after P [r] e m e1 m1 e' m' e1' m1' -> after P rs e1 m1 e2 m2 e1' m1' e2' m2' -> after P (r :: rs) e m e2 m2 e' m' e2' m2'.
Proof.
  intros (A1 & C1 & D1 & F1 & K1) (A2 & C2 & D2 & F2 & K2). repeat apply conj; try assumption.
  - intros i I1. destruct (in_dec Nat.eq_dec i rs) as [I2|I2]; [exact (D2 i I2)|].
    destruct I1 as [<-|I1]; [|contradiction]. destruct (F2 _ I2) as [-> ->]. apply D1. left. reflexivity.
  - intros i N1. destruct (F2 i (fun I1 => N1 (or_intror I1))) as [-> ->]. apply F1. intros [<-|[]]. apply N1. left. reflexivity.
  - intros a N1. rewrite (K2 a (fun I1 => N1 (or_intror I1))). apply K1. intros [<-|[]]. apply N1. left. reflexivity.
Qed.
Lemma puts_local (P : nat -> Prop) : forall rs ds e m e2 m2 e' m', Forall P (map fst rs) -> agree P m m' -> closed P m -> puts rs ds e m = Some (e2, m2) ->
  exists e2' m2', puts rs ds e' m' = Some (e2', m2') /\ after P (map fst rs) e m e2 m2 e' m' e2' m2'.
Proof.
  induction rs as [|r rs IH]; intros [|d ds] e m e2 m2 e' m' F A C; cbn [puts]; try discriminate.
  - intros [= <- <-]. exists e', m'. split; [reflexivity|]. apply after_none; [exact A|exact C|reflexivity].
  - inversion F as [|? ? Pr F']; subst. intros H. destruct (put r d e m) as [[e1 m1]|] eqn:E; [|discriminate]. cbn in H.
    destruct (put_local P r d e m e1 m1 e' m' Pr A C E) as (e1' & m1' & E1 & Af).
    destruct (IH ds e1 m1 e2 m2 e1' m1' F' (proj1 Af) (proj1 (proj2 Af)) H) as (e2' & m2' & E2 & Af2).
    exists e2', m2'. rewrite E1. cbn. split; [exact E2|]. exact (after_trans _ _ _ _ _ _ _ _ _ _ _ _ _ _ _ Af Af2).
Qed.
Lemma binds_local P : forall rs xs (e e2 e' : env), Forall (below P) xs -> binds rs xs e = Some e2 ->
  exists e2', binds rs xs e' = Some e2' /\ (forall i, In i (map fst rs) -> e2' i = e2 i /\ exists x, e2 i = Some x /\ below P x) /\ (forall i, ~ In i (map fst rs) -> e2 i = e i /\ e2' i = e' i).
Proof.
  induction rs as [|r rs IH]; intros [|x xs] e e2 e' F; cbn [binds]; try discriminate.
  - intros [= <-]. exists e'. split; [reflexivity|]. split; [intros i []|]. intros i _. split; reflexivity.
  - inversion F as [|? ? B F']; subst. intros H. destruct (IH xs _ e2 (upd e' (fst r) x) F' H) as (e2' & E & D & N). exists e2'. split; [exact E|]. split.
    + intros i I1. destruct (in_dec Nat.eq_dec i (map fst rs)) as [I2|I2]; [exact (D i I2)|].
      destruct I1 as [<-|I1]; [|contradiction]. destruct (N _ I2) as [-> ->]. rewrite !upd_eq. split; [reflexivity|]. exists x. split; [reflexivity|exact B].
    + intros i I1. destruct (N i (fun I2 => I1 (or_intror I2))) as [-> ->]. assert (i <> fst r) by (intros ->; apply I1; left; reflexivity). rewrite !upd_neq by assumption. split; reflexivity.
Qed.
Lemma write_local P f r xs e m e2 m2 e' m' : agree P m m' -> closed P m -> Forall (below P) xs -> write f r xs e m = Some (e2, m2) ->
  exists e2' m2', write f r xs e' m' = Some (e2', m2') /\ after P [fst r] e m e2 m2 e' m' e2' m2'.
Proof.
  intros A C B. unfold write. rewrite (reads_agree P m m' xs A C B). destruct (mapM (read m) xs) as [args|]; [|discriminate]. cbn [obind].
  destruct (f args) as [c|]; [|discriminate]. cbn [obind]. destruct xs as [|[c1|a|y] xs]; try discriminate.
  inversion B as [|? ? Pa B']; subst. cbn in Pa. rewrite (A a Pa). destruct (m a) as [[c1|l]|] eqn:E; try discriminate. intros [= <- <-].
  eexists; eexists; split; [reflexivity|]. apply after_one; [apply agree_upd; exact A|apply closed_upd_tensor; exact C|exact Pa|].
  intros b _. unfold upd. destruct (Nat.eqb_spec b a) as [->|N1]; [rewrite E; reflexivity|reflexivity].
Qed.
Lemma exec_local (P : nat -> Prop) o xs e m e2 m2 e' m' : Forall P (map fst (results o)) -> agree P m m' -> closed P m -> Forall (below P) xs -> exec tr w o xs e m = Some (e2, m2) ->
  exists e2' m2', exec tr w o xs e' m' = Some (e2', m2') /\ after P (map fst (results o)) e m e2 m2 e' m' e2' m2'.
Proof.
  intros F A C B. destruct o as [name rs args|name rs args|r l|r v|r v|r v|r v|v t|r k i|r k|r b|r|r v|r v d|r args]; cbn [exec results] in *.
  - destruct (value_semantics tr name).
    + rewrite (reads_agree P m m' xs A C B). destruct (mapM (read m) xs) as [as_|]; [|discriminate]. cbn [obind]. destruct (computes w name as_) as [ds|]; [|discriminate]. cbn [obind]. apply puts_local; assumption.
    + destruct (in_place tr name).
      * destruct rs as [|r [|r' rs]]; try discriminate. apply write_local; assumption.
      * intros H. destruct (other w name (map fst rs) xs m) as [[ys m1]|] eqn:E; [|discriminate]. cbn [obind] in H.
        destruct (binds rs ys e) as [e1|] eqn:E1; [|discriminate]. cbn in H. injection H as <- <-.
        destruct (other_local w P name (map fst rs) xs m m' ys m1 C B F A E) as (C1 & B1 & m1' & E' & A1).
        destruct (binds_local P rs ys e e1 e' B1 E1) as (e1' & E1' & D & N).
        exists e1', m1'. rewrite E'. cbn. rewrite E1'. cbn. split; [reflexivity|]. repeat apply conj; try assumption.
        intros a N1. exact (other_kind w _ _ _ _ _ _ E a N1).
  - rewrite (reads_agree P m m' xs A C B). destruct (mapM (read m) xs) as [as_|]; [|discriminate]. cbn [obind]. destruct (operators w name as_) as [ds|]; [|discriminate]. cbn [obind]. apply puts_local; assumption.
  - intros [= <- <-]. eexists; eexists; split; [reflexivity|]. inversion F; subst. apply after_one; [apply agree_upd; exact A|apply closed_upd_items; assumption|assumption|]. intros a N1. apply kind_upd_new; exact N1.
  - destruct xs as [|x [|y xs]]; try discriminate. intros [= <- <-]. inversion B; subst. eexists; eexists; split; [reflexivity|]. apply after_one; try assumption. reflexivity.
  - destruct xs as [|x [|y xs]]; try discriminate. inversion B; subst. rewrite (tensor_at_agree P m m' x) by assumption. destruct (tensor_at m x) as [c|]; [|discriminate]. cbn. intros [= <- <-].
    eexists; eexists; split; [reflexivity|]. apply after_one; try assumption; try exact Logic.I. reflexivity.
  - destruct xs as [|[c|a|y] [|y' xs]]; try discriminate. intros [= <- <-]. inversion F; subst. eexists; eexists; split; [reflexivity|]. apply after_one; [apply agree_upd; exact A|apply closed_upd_tensor; exact C|assumption|]. intros b N1. apply kind_upd_new; exact N1.
  - destruct xs as [|x [|y xs]]; try discriminate. intros [= <- <-]. inversion B; subst. eexists; eexists; split; [reflexivity|]. apply after_one; try assumption. reflexivity.
  - destruct xs as [|[c|a|y] [|[c'|b|y'] [|z xs]]]; try discriminate. inversion B as [|? ? _ B']; subst. inversion B' as [|? ? Pb _]; subst. rewrite (tensor_at_agree P m m' (Ref b)) by assumption.
    destruct (tensor_at m (Ref b)) as [c1|] eqn:E; [|discriminate]. cbn [obind]. intros [= <- <-]. eexists; eexists; split; [reflexivity|]. apply after_none; [apply agree_upd; exact A|apply closed_upd_tensor; exact C|].
    intros a. unfold upd. destruct (Nat.eqb_spec a b) as [->|N1]; [|reflexivity]. cbn in E. destruct (m b) as [[|]|]; try discriminate. reflexivity.
  - intros [= <- <-]. inversion F; subst. eexists; eexists; split; [reflexivity|]. apply after_one; [apply agree_upd; exact A|apply closed_upd_tensor; exact C|assumption|]. intros b N1. apply kind_upd_new; exact N1.
  - intros [= <- <-]. eexists; eexists; split; [reflexivity|]. apply after_one; try assumption; try exact Logic.I. reflexivity.
  - intros [= <- <-]. eexists; eexists; split; [reflexivity|]. apply after_one; try assumption; try exact Logic.I. reflexivity.
  - intros [= <- <-]. eexists; eexists; split; [reflexivity|]. apply after_one; try assumption; try exact Logic.I. reflexivity.
  - destruct xs as [|x [|y xs]]; try discriminate. inversion B; subst. rewrite (tensor_at_agree P m m' x) by assumption. destruct (tensor_at m x) as [c|]; [|discriminate]. cbn. intros [= <- <-].
    eexists; eexists; split; [reflexivity|]. apply after_one; try assumption; try exact Logic.I. reflexivity.
  - destruct xs as [|x [|[c'|a|y] [|z xs]]]; try discriminate. inversion B; subst. rewrite (tensor_at_agree P m m' x) by assumption. destruct (tensor_at m x) as [c|]; [|discriminate]. cbn [obind].
    destruct (is_of w y c); [intros [= <- <-]|destruct (cast_to w y c) as [c2|]; [|discriminate]; cbn; intros [= <- <-]]; eexists; eexists; (split; [reflexivity|]).
    + apply after_one; try assumption. reflexivity.
    + inversion F; subst. apply after_one; [apply agree_upd; exact A|apply closed_upd_tensor; exact C|assumption|]. intros b N1. apply kind_upd_new; exact N1.
  - apply write_local; assumption.
Qed.
Lemma exec_rename s o xs e m : exec tr w (rename_op s o) xs e m = exec tr w o xs e m.
Proof. destruct o; reflexivity. Qed.

(** Fetching in an environment where values may have other numbers *)
Lemma fetch_rel P s e m e' m' v (x : rt) : agree P m m' -> (forall y, e (fst v) = Some y -> e' (look s (fst v)) = Some y /\ below P y) -> fetch e m v = Some x -> fetch e' m' (rename s v) = Some x.
Proof.
  intros A H. unfold fetch. rewrite rename_fst, rename_snd. destruct (e (fst v)) as [y|]; [|discriminate]. destruct (H y eq_refl) as [-> B]. cbn.
  rewrite (fits_kind m m'); [exact (fun z => z)|]. intros a ->. rewrite (A a B). reflexivity.
Qed.
Lemma fetch_env (e : env) m v x : fetch e m v = Some x -> e (fst v) = Some x /\ fits m (snd v) x = true.
Proof. unfold fetch. destruct (e (fst v)) as [y|]; [|discriminate]. cbn. destruct (fits m (snd v) y) eqn:E; [|discriminate]. intros [= <-]. split; [reflexivity|exact E]. Qed.
Lemma run_op_rel (P : nat -> Prop) s o e m e2 m2 e' m' : Forall P (map fst (results o)) -> agree P m m' -> closed P m ->
  (forall v y, In v (operands o) -> e (fst v) = Some y -> e' (look s (fst v)) = Some y /\ below P y) -> run_op tr w o e m = Some (e2, m2) ->
  exists e2' m2', run_op tr w (rename_op s o) e' m' = Some (e2', m2') /\ after P (map fst (results o)) e m e2 m2 e' m' e2' m2'.
Proof.
  intros F A C H. unfold run_op. destruct (mapM (fetch e m) (operands o)) as [xs|] eqn:E; [|discriminate]. cbn [obind]. intros R.
  rewrite operands_rename. rewrite (mapM_rel (fetch e m) (fetch e' m') (rename s) _ xs E).
  2: { intros v x I1. apply (fetch_rel P); [exact A|]. intros y. apply H. exact I1. }
  cbn [obind]. rewrite exec_rename. apply (exec_local P o xs e m e2 m2 e' m'); try assumption.
  apply (mapM_Forall _ _ _ _ E). intros v x I1 G. apply fetch_env in G. exact (proj2 (H v x I1 (proj1 G))).
Qed.
Lemma run_app l l' e m : run tr w (l ++ l') e m = do (e, m) <- run tr w l e m; run tr w l' e m.
Proof. revert e m. induction l as [|o l IH]; intros e m; cbn; [reflexivity|]. destruct (run_op tr w o e m) as [[e1 m1]|]; [|reflexivity]. cbn. apply IH. Qed.
End Runs.
