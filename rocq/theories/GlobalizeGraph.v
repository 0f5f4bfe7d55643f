(** The paths to the modules, the names of the global slots, and the set of specialisations. *)
From Coq Require Import Bool PeanoNat Ascii String Lia List.
From Verif Require Import Prelude GlobalizeModel GlobalizeSpec GlobalizeProofs.
Import ListNotations.
Open Scope string_scope.
Open Scope list_scope.
Open Scope nat_scope.

(** ** Specialisations *)
Lemma insert_all_spec l dirty found dirty' found' :
  insert_all l dirty found = (dirty', found') -> NoDup found ->
  NoDup found' /\ incl dirty dirty' /\ (forall m, In m found' <-> In m found \/ In m l) /\ (forall m, In m found' -> In m found \/ In m dirty') /\ (forall m, In m dirty' -> In m dirty \/ In m found').
Proof.
  revert dirty found. induction l as [|a l IH]; intros dirty found; cbn [insert_all].
  - intros H N. inj H. split; [assumption|]. split; [apply incl_refl|]. split; [intros m; cbn; tauto|]. split; intros m; tauto.
  - destruct (existsb (mono_eqb a) found) eqn:X; intros H N.
    + destruct (IH _ _ H N) as (A & B & C & D & E). split; [exact A|]. split; [exact B|]. split; [|split; assumption].
      intros m. rewrite C. cbn [In]. split; [tauto|]. intros [K|[->|K]]; try tauto. apply existsb_exists in X. destruct X as (y & Y1 & Y2). apply mono_eqb_eq in Y2. subst. tauto.
    + assert (N' : NoDup (found ++ [a])).
      { clear IH H. assert (K : ~ In a found) by (intros K; rewrite <- not_true_iff_false in X; apply X; apply existsb_exists; exists a; split; [exact K|apply mono_eqb_eq; reflexivity]).
        clear X. induction found as [|b f IHf]; [repeat constructor; intros []|]. inversion N; subst. cbn. constructor.
        - rewrite in_app_iff. cbn. intros [Q|[Q|[]]]; [contradiction|subst; apply K; left; reflexivity].
        - apply IHf; [assumption|]. intros Q. apply K. right. exact Q. }
      destruct (IH _ _ H N') as (A & B & C & D & E). split; [exact A|]. split; [intros m Hm; apply B; right; exact Hm|]. split; [|split].
      * intros m. rewrite C, in_app_iff. cbn [In]. tauto.
      * intros m Hm. destruct (D m Hm) as [K|K]; [|right; exact K]. apply in_app_iff in K. destruct K as [K|[->|[]]]; [left; exact K|]. right. apply B. left. reflexivity.
      * intros m Hm. destruct (E m Hm) as [[->|K]|K]; [|left; exact K|right; exact K]. right. rewrite C, in_app_iff. cbn. tauto.
Qed.
Definition settled (p : program) (dirty found : list mono) : Prop :=
  NoDup found /\ incl (seeds p) found /\ (forall m, In m found -> needed p m) /\ (forall m, In m dirty -> In m found) /\
  (forall m, In m found -> In m dirty \/ exists l, calls_of p m = Some l /\ incl l found).
Lemma track_settled p rounds dirty found ms : settled p dirty found -> track p rounds dirty found = Some ms -> settled p [] ms.
Proof.
  revert dirty found. induction rounds as [|rounds IH]; intros [|m dirty] found S; cbn [track]; try discriminate.
  - intros H. inj H. exact S.
  - intros H. inj H. exact S.
  - destruct S as (N & Se & Ne & Di & Cl). destruct (calls_of p m) as [l|] eqn:C; [|discriminate]. cbn [obind].
    destruct (insert_all l dirty found) as [dirty' found'] eqn:I. apply IH.
    destruct (insert_all_spec _ _ _ _ _ I N) as (A & B & C' & D & F).
    split; [exact A|]. split; [intros y Hy; apply C'; left; apply Se; exact Hy|]. split; [|split].
    + intros y Hy. apply C' in Hy. destruct Hy as [Hy|Hy]; [apply Ne; exact Hy|]. apply needed_call with (m := m) (l := l); [apply Ne, Di; left; reflexivity|exact C|exact Hy].
    + intros y Hy. destruct (F _ Hy) as [K|K]; [|exact K]. apply C'. left. apply Di. right. exact K.
    + intros y Hy. destruct (D _ Hy) as [K|K]; [|left; exact K].
      destruct (Cl _ K) as [[->|Q]|(l' & Q1 & Q2)].
      * right. exists l. split; [exact C|]. intros z Hz. apply C'. right. exact Hz.
      * left. apply B. exact Q.
      * right. exists l'. split; [exact Q1|]. intros z Hz. apply C'. left. apply Q2. exact Hz.
Qed.
Lemma seeds_spec p m : In m (seeds p) <-> exists f l, In f (functions p) /\ trivial p 0 (arguments f) = Some l /\ m = (function_name f, l).
Proof.
  unfold seeds. rewrite in_flat_map. split.
  - intros (f & F & K). destruct (trivial p 0 (arguments f)) as [l|] eqn:T; [|destruct K]. destruct K as [<-|[]]. exists f, l. repeat split; assumption.
  - intros (f & l & F & T & ->). exists f. split; [exact F|]. rewrite T. left. reflexivity.
Qed.
Theorem monomorphizations_needed p rounds ms : monomorphizations p rounds = Some ms -> NoDup ms /\ forall m, In m ms <-> needed p m.
Proof.
  unfold monomorphizations. destruct (insert_all (seeds p) [] []) as [dirty found] eqn:I.
  destruct (insert_all_spec _ _ _ _ _ I (NoDup_nil _)) as (A & B & C & D & F). intros T.
  assert (S : settled p dirty found).
  { split; [exact A|]. split; [intros y Hy; apply C; right; exact Hy|]. split; [|split].
    - intros y Hy. apply C in Hy. destruct Hy as [[]|Hy]. apply seeds_spec in Hy. destruct Hy as (f & l & F1 & F2 & ->). apply needed_seed; assumption.
    - intros y Hy. destruct (F _ Hy) as [[]|K]; exact K.
    - intros y Hy. destruct (D _ Hy) as [[]|K]; left; exact K. }
  apply (track_settled _ _ _ _ _ S) in T. destruct T as (N & Se & Ne & _ & Cl). split; [exact N|]. intros m. split; [apply Ne|].
  induction 1 as [f l F1 F2|m l m' _ IH C1 C2].
  - apply Se, seeds_spec. exists f, l. repeat split; assumption.
  - destruct (Cl _ IH) as [[]|(l' & Q1 & Q2)]. rewrite C1 in Q1. inj Q1. apply Q2. exact C2.
Qed.
(** The search ends: with enough rounds it succeeds, unless a function or a module cannot be found *)
(** ** Paths from the front *)
Inductive edge (p : program) : nat -> string -> nat -> Prop :=
| an_edge : forall j m c k s a j',
    find_module (modules p) j = Some m -> find_class (classes p) (module_class m) = Some c ->
    nth_error (slots m) k = Some s -> nth_error (attrs c) k = Some a ->
    (exists d, attr_type a = Mod d) -> slot_value_of s = Object j' -> edge p j (attr_name a) j'.
Lemma path_snoc p i names j a j' : path p i names j -> edge p j a j' -> path p i (names ++ [a]) j'.
Proof. intros P X. inversion X; subst. eapply path_step; eassumption. Qed.
Lemma path_cons p i a j names j' : edge p i a j -> path p j names j' -> path p i (a :: names) j'.
Proof.
  intros X P. induction P as [j|j names j1 m c k s a' j' P IH Hm Hc Hs Ha Ht Hv].
  - exact (path_snoc p i [] i a j (path_here p i) X).
  - rewrite app_comm_cons. refine (path_snoc p i (a :: names) j1 (attr_name a') j' (IH X) _). econstructor; eassumption.
Qed.
Lemma path_inv p i names j : path p i names j -> (names = [] /\ j = i) \/ exists a i' r, names = a :: r /\ edge p i a i' /\ path p i' r j.
Proof.
  intros P. induction P as [j|i names j1 m c k s a' j' P IH Hm Hc Hs Ha Ht Hv]; [left; split; reflexivity|].
  assert (X : edge p j1 (attr_name a') j') by (econstructor; eassumption).
  right. destruct IH as [[-> ->]|(a & i' & r & -> & X1 & P1)].
  - exists (attr_name a'), j', []. split; [reflexivity|]. split; [exact X|apply path_here].
  - exists a, i', (r ++ [attr_name a']). split; [reflexivity|]. split; [exact X1|]. exact (path_snoc _ _ _ _ _ _ P1 X).
Qed.

(** ** The traversal *)
Section Traversal.
Context (p : program) (used : list (vtype * string)).
Definition walk_slots (rec : list string -> nat -> info -> option info) (i : nat) (m : nn_module) (stack : list string) :=
  fix slots_and_attrs (ss : list slot) (aa : list attr) (x : info) : option info :=
    match ss, aa with
    | s :: ss, a :: aa =>
        let path := stack ++ [attr_name a] in
        do x <- (match attr_type a with
                 | Mod _ => match slot_value_of s with Object j => rec path j x | Constant _ => None end
                 | Data => Some (if slot_used used m (slot_name s) then add_link (i, slot_name s) {| global_name := join path; global_private := attr_private a; initial := slot_value_of s |} x else x)
                 end);
        slots_and_attrs ss aa x
    | _, _ => Some x
    end.
Definition add_methods (i : nat) (stack : list string) (l : list method) (x : info) : info :=
  fold_left (fun x d => add_export (i, method_function d) (join (stack ++ [method_name d]), method_private d) x) l x.
Lemma traverse_eq fuel stack i x : traverse p used (S fuel) stack i x =
  if existsb (Nat.eqb i) (seen x) then None
  else do m <- find_module (modules p) i; do c <- find_class (classes p) (module_class m);
       do x <- walk_slots (traverse p used fuel) i m stack (slots m) (attrs c) (add_seen i x);
       Some (add_methods i stack (methods c) x).
Proof. reflexivity. Qed.

(** What a module reached from [i] contributes, with the names on the stack before *)
Definition gives_link (i : nat) (stack : list string) (key : nat * string) (g : global) : Prop :=
  exists names m c k s a,
    path p i names (fst key) /\ find_module (modules p) (fst key) = Some m /\ find_class (classes p) (module_class m) = Some c /\
    nth_error (slots m) k = Some s /\ nth_error (attrs c) k = Some a /\ slot_name s = snd key /\ attr_type a = Data /\
    slot_used used m (snd key) = true /\
    g = {| global_name := join (stack ++ names ++ [attr_name a]); global_private := attr_private a; initial := slot_value_of s |}.
Definition gives_export (i : nat) (stack : list string) (key : nat * string) (e : string * bool) : Prop :=
  exists names m c d,
    path p i names (fst key) /\ find_module (modules p) (fst key) = Some m /\ find_class (classes p) (module_class m) = Some c /\
    In d (methods c) /\ method_function d = snd key /\ e = (join (stack ++ names ++ [method_name d]), method_private d).
Definition subtree (i j : nat) : Prop := exists names, path p i names j.
Record traversed (i : nat) (stack : list string) (x x' : info) : Prop := {
  t_seen : forall j, In j (seen x') <-> In j (seen x) \/ subtree i j;
  t_new : forall j, subtree i j -> ~ In j (seen x);
  t_once : forall j n n', path p i n j -> path p i n' j -> n = n';
  t_links : forall k g, In (k, g) (links x') <-> In (k, g) (links x) \/ gives_link i stack k g;
  t_exports : forall k e, In (k, e) (exports x') <-> In (k, e) (exports x) \/ gives_export i stack k e }.

(** What the slots of one module contribute *)
Definition child (ss : list slot) (aa : list attr) (k : nat) (a : attr) (j : nat) : Prop :=
  exists s, nth_error ss k = Some s /\ nth_error aa k = Some a /\ (exists d, attr_type a = Mod d) /\ slot_value_of s = Object j.
Definition own (m : nn_module) (i : nat) (stack : list string) (ss : list slot) (aa : list attr) (key : nat * string) (g : global) : Prop :=
  exists k s a, nth_error ss k = Some s /\ nth_error aa k = Some a /\ attr_type a = Data /\ slot_used used m (slot_name s) = true /\ key = (i, slot_name s) /\
    g = {| global_name := join (stack ++ [attr_name a]); global_private := attr_private a; initial := slot_value_of s |}.
Record walked (i : nat) (m : nn_module) (stack : list string) (ss : list slot) (aa : list attr) (x x' : info) : Prop := {
  w_seen : forall j, In j (seen x') <-> In j (seen x) \/ exists k a c, child ss aa k a c /\ subtree c j;
  w_new : forall j k a c, child ss aa k a c -> subtree c j -> ~ In j (seen x);
  w_apart : forall j k a c k' a' c', child ss aa k a c -> child ss aa k' a' c' -> subtree c j -> subtree c' j -> k = k';
  w_once : forall j k a c n n', child ss aa k a c -> path p c n j -> path p c n' j -> n = n';
  w_links : forall key g, In (key, g) (links x') <-> In (key, g) (links x) \/ own m i stack ss aa key g \/ exists k a c, child ss aa k a c /\ gives_link c (stack ++ [attr_name a]) key g;
  w_exports : forall key e, In (key, e) (exports x') <-> In (key, e) (exports x) \/ exists k a c, child ss aa k a c /\ gives_export c (stack ++ [attr_name a]) key e }.

Lemma child_data s a ss aa k b c : attr_type a = Data -> child (s :: ss) (a :: aa) k b c -> exists k', k = S k' /\ child ss aa k' b c.
Proof. intros T (s' & H1 & H2 & (d & H3) & H4). destruct k as [|k]; cbn in *; [inj H2; congruence|]. exists k. split; [reflexivity|]. exists s'. split; [exact H1|]. split; [exact H2|]. split; [exists d; exact H3|exact H4]. Qed.
Lemma child_later s a ss aa k b c : child ss aa k b c -> child (s :: ss) (a :: aa) (S k) b c.
Proof. intros H. exact H. Qed.
Lemma own_cons m i stack s a ss aa key g : own m i stack (s :: ss) (a :: aa) key g <->
  (attr_type a = Data /\ slot_used used m (slot_name s) = true /\ key = (i, slot_name s) /\ g = {| global_name := join (stack ++ [attr_name a]); global_private := attr_private a; initial := slot_value_of s |}) \/ own m i stack ss aa key g.
Proof.
  split.
  - intros ([|k] & s' & a' & H1 & H2 & H3); cbn in H1, H2; [inj H1; inj H2; left; exact H3|right; exists k, s', a'; split; [exact H1|split; [exact H2|exact H3]]].
  - intros [H|(k & s' & a' & H1 & H2 & H3)]; [exists 0, s, a; split; [reflexivity|split; [reflexivity|exact H]]|exists (S k), s', a'; split; [exact H1|split; [exact H2|exact H3]]].
Qed.
Lemma walk_spec rec i m stack (Hrec : forall st j x x', rec st j x = Some x' -> traversed j st x x') ss : forall aa x x',
  walk_slots rec i m stack ss aa x = Some x' -> walked i m stack ss aa x x'.
Proof.
  induction ss as [|s ss IH]; intros [|a aa] x x'; cbn [walk_slots].
  1-3: intros H; inj H; assert (N : forall ss' aa' k b c, (ss' = [] \/ aa' = []) -> ~ child ss' aa' k b c) by
         (intros ss' aa' k b c [->| ->] (s' & H1 & H2 & _); [destruct k; discriminate H1|destruct k; discriminate H2]);
       constructor;
       [ intros j; split; [left; assumption|intros [K|(k & b & c & K & _)]; [exact K|exfalso; eapply N; [|exact K]; auto]]
       | intros j k b c K; exfalso; eapply N; [|exact K]; auto
       | intros j k b c k' b' c' K; exfalso; eapply N; [|exact K]; auto
       | intros j k b c n n' K; exfalso; eapply N; [|exact K]; auto
       | intros key g; split; [left; assumption|intros [K|[(k & s' & b & K1 & K2 & _)|(k & b & c & K & _)]]; [exact K|destruct k; first [discriminate K1|discriminate K2]|exfalso; eapply N; [|exact K]; auto]]
       | intros key g; split; [left; assumption|intros [K|(k & b & c & K & _)]; [exact K|exfalso; eapply N; [|exact K]; auto]] ].
  destruct (attr_type a) as [d|] eqn:T.
  - destruct (slot_value_of s) as [j0|] eqn:V; [|discriminate].
    destruct (rec (stack ++ [attr_name a]) j0 x) as [x1|] eqn:R; [|discriminate]. cbn [obind]. intros H.
    destruct (Hrec _ _ _ _ R) as [Ts Tn To Tl Te]. destruct (IH _ _ _ H) as [Ws Wn Wa Wo Wl We].
    assert (C : forall k b c, child (s :: ss) (a :: aa) k b c <-> (k = 0 /\ b = a /\ c = j0) \/ exists k', k = S k' /\ child ss aa k' b c).
    { intros k b c. split.
      - intros (s' & H1 & H2 & H3 & H4). destruct k as [|k]; cbn in H1, H2.
        + inj H1. inj H2. left. split; [reflexivity|]. split; [reflexivity|]. congruence.
        + right. exists k. split; [reflexivity|]. exists s'. split; [exact H1|]. split; [exact H2|]. split; assumption.
      - intros [(-> & -> & ->)|(k' & -> & K)]; [|exact K]. exists s. split; [reflexivity|]. split; [reflexivity|]. split; [exists d; exact T|exact V]. }
    constructor.
    + intros j. rewrite Ws, Ts. split.
      * intros [[K|K]|(k & b & c & K & Su)]; [left; exact K|right; exists 0, a, j0; split; [apply C; left; auto|exact K]|right; exists (S k), b, c; split; [exact K|exact Su]].
      * intros [K|(k & b & c & K & Su)]; [left; left; exact K|]. apply C in K. destruct K as [(-> & -> & ->)|(k' & -> & K)]; [left; right; exact Su|right; exists k', b, c; split; assumption].
    + intros j k b c K Su. apply C in K. destruct K as [(-> & -> & ->)|(k' & -> & K)]; [exact (Tn _ Su)|]. intros Q. apply (Wn _ _ _ _ K Su). apply Ts. left. exact Q.
    + intros j k b c k' b' c' K K' Su Su'. apply C in K. apply C in K'.
      destruct K as [(-> & -> & ->)|(k1 & -> & K)]; destruct K' as [(-> & -> & ->)|(k1' & -> & K')]; [reflexivity| | |].
      * exfalso. apply (Wn _ _ _ _ K' Su'). apply Ts. right. exact Su.
      * exfalso. apply (Wn _ _ _ _ K Su). apply Ts. right. exact Su'.
      * f_equal. exact (Wa _ _ _ _ _ _ _ K K' Su Su').
    + intros j k b c n n' K. apply C in K. destruct K as [(-> & -> & ->)|(k1 & -> & K)]; [apply To|exact (Wo _ _ _ _ _ _ K)].
    + intros key g. rewrite Wl, Tl, own_cons. rewrite T. split.
      * intros [[K|K]|[K|(k & b & c & K & Su)]]; [left; exact K|right; right; exists 0, a, j0; split; [apply C; left; auto|exact K]|right; left; right; exact K|right; right; exists (S k), b, c; split; assumption].
      * intros [K|[[[K _]|K]|(k & b & c & K & Su)]]; [left; left; exact K|discriminate|right; left; exact K|]. apply C in K. destruct K as [(-> & -> & ->)|(k' & -> & K)]; [left; right; exact Su|right; right; exists k', b, c; split; assumption].
    + intros key g. rewrite We, Te. split.
      * intros [[K|K]|(k & b & c & K & Su)]; [left; exact K|right; exists 0, a, j0; split; [apply C; left; auto|exact K]|right; exists (S k), b, c; split; assumption].
      * intros [K|(k & b & c & K & Su)]; [left; left; exact K|]. apply C in K. destruct K as [(-> & -> & ->)|(k' & -> & K)]; [left; right; exact Su|right; exists k', b, c; split; assumption].
  - cbn [obind]. intros H. destruct (IH _ _ _ H) as [Ws Wn Wa Wo Wl We].
    set (x1 := if slot_used used m (slot_name s) then add_link (i, slot_name s) {| global_name := join (stack ++ [attr_name a]); global_private := attr_private a; initial := slot_value_of s |} x else x) in *.
    assert (S1 : seen x1 = seen x) by (unfold x1; destruct (slot_used used m (slot_name s)); reflexivity).
    assert (S2 : exports x1 = exports x) by (unfold x1; destruct (slot_used used m (slot_name s)); reflexivity).
    constructor.
    + intros j. rewrite Ws, S1. split; (intros [K|(k & b & c & K & Su)]; [left; exact K|right]).
      * exists (S k), b, c. split; assumption.
      * destruct (child_data _ _ _ _ _ _ _ T K) as (k' & -> & K'). exists k', b, c. split; assumption.
    + intros j k b c K Su. destruct (child_data _ _ _ _ _ _ _ T K) as (k' & -> & K'). rewrite <- S1. exact (Wn _ _ _ _ K' Su).
    + intros j k b c k' b' c' K K' Su Su'. destruct (child_data _ _ _ _ _ _ _ T K) as (k1 & -> & K1). destruct (child_data _ _ _ _ _ _ _ T K') as (k1' & -> & K1'). f_equal. exact (Wa _ _ _ _ _ _ _ K1 K1' Su Su').
    + intros j k b c n n' K. destruct (child_data _ _ _ _ _ _ _ T K) as (k1 & -> & K1). exact (Wo _ _ _ _ _ _ K1).
    + intros key g. rewrite Wl, own_cons. rewrite T.
      assert (L : In (key, g) (links x1) <-> In (key, g) (links x) \/ (slot_used used m (slot_name s) = true /\ key = (i, slot_name s) /\ g = {| global_name := join (stack ++ [attr_name a]); global_private := attr_private a; initial := slot_value_of s |})).
      { unfold x1. destruct (slot_used used m (slot_name s)); cbn [add_link links].
        - rewrite in_app_iff. cbn [In]. split; [intros [K|[K|[]]]; [left; exact K|right; inj K; auto]|intros [K|(_ & -> & ->)]; auto].
        - split; [auto|intros [K|[K _]]; [exact K|discriminate]]. }
      rewrite L. split.
      * intros [[K|K]|[K|(k & b & c & K & Su)]]; [left; exact K|right; left; left; split; [reflexivity|exact K]|right; left; right; exact K|right; right; exists (S k), b, c; split; assumption].
      * intros [K|[[[_ K]|K]|(k & b & c & K & Su)]]; [left; left; exact K|left; right; exact K|right; left; exact K|]. destruct (child_data _ _ _ _ _ _ _ T K) as (k1 & -> & K1). right. right. exists k1, b, c. split; assumption.
    + intros key g. rewrite We, S2. split; (intros [K|(k & b & c & K & Su)]; [left; exact K|right]).
      * exists (S k), b, c. split; assumption.
      * destruct (child_data _ _ _ _ _ _ _ T K) as (k' & -> & K'). exists k', b, c. split; assumption.
Qed.
Lemma add_methods_spec i stack l x : seen (add_methods i stack l x) = seen x /\ links (add_methods i stack l x) = links x /\
  forall k e, In (k, e) (exports (add_methods i stack l x)) <-> In (k, e) (exports x) \/ exists d, In d l /\ k = (i, method_function d) /\ e = (join (stack ++ [method_name d]), method_private d).
Proof.
  unfold add_methods. revert x. induction l as [|d l IH]; intros x; cbn [fold_left].
  - split; [reflexivity|]. split; [reflexivity|]. intros k e. split; [auto|intros [K|(d & [] & _)]; exact K].
  - destruct (IH (add_export (i, method_function d) (join (stack ++ [method_name d]), method_private d) x)) as (A & B & C). split; [exact A|]. split; [exact B|].
    intros k e. rewrite C. cbn [add_export exports In]. split.
    + intros [[K|K]|(d' & K1 & K2)]; [inj K; right; exists d; auto|auto|right; exists d'; auto].
    + intros [K|(d' & [->|K1] & K2 & K3)]; [auto|left; left; subst; reflexivity|right; exists d'; auto].
Qed.
Theorem traverse_spec fuel : forall stack i x x', traverse p used fuel stack i x = Some x' -> traversed i stack x x'.
Proof.
  induction fuel as [|fuel IH]; intros stack i x x'; [discriminate|]. rewrite traverse_eq.
  destruct (existsb (Nat.eqb i) (seen x)) eqn:Sn; [discriminate|].
  assert (New : ~ In i (seen x)).
  { intros K. rewrite <- not_true_iff_false in Sn. apply Sn. apply existsb_exists. exists i. split; [exact K|apply Nat.eqb_refl]. }
  destruct (find_module (modules p) i) as [m|] eqn:M; [|discriminate]. cbn [obind].
  destruct (find_class (classes p) (module_class m)) as [c|] eqn:C; [|discriminate]. cbn [obind].
  destruct (walk_slots (traverse p used fuel) i m stack (slots m) (attrs c) (add_seen i x)) as [x1|] eqn:W; [|discriminate]. cbn [obind]. intros H. inj H.
  apply (walk_spec _ _ _ _ IH) in W. destruct W as [Ws Wn Wa Wo Wl We].
  destruct (add_methods_spec i stack (methods c) x1) as (A & B & D). cbn [add_seen seen links exports] in *.
  assert (Ed : forall a j, edge p i a j <-> exists k b, child (slots m) (attrs c) k b j /\ attr_name b = a).
  { intros a j. split.
    - intros X. inversion X; subst. rewrite M in H. inj H. rewrite C in H0. inj H0. exists k, a0. split; [exists s; auto|reflexivity].
    - intros (k & b & (s & H1 & H2 & H3 & H4) & <-). econstructor; eassumption. }
  assert (Pa : forall n j, path p i n j <-> (n = [] /\ j = i) \/ exists k b j' r, child (slots m) (attrs c) k b j' /\ n = attr_name b :: r /\ path p j' r j).
  { intros n j. split.
    - intros P. apply path_inv in P. destruct P as [P|(a & i' & r & -> & X & P)]; [left; exact P|]. apply Ed in X. destruct X as (k & b & K & <-). right. exists k, b, i', r. auto.
    - intros [[-> ->]|(k & b & j' & r & K & -> & P)]; [apply path_here|]. apply path_cons with (j := j'); [|exact P]. apply Ed. exists k, b. auto. }
  constructor.
  - intros j. rewrite A, Ws. cbn [In]. split.
    + intros [[->|K]|(k & b & j' & K & r & P)]; [right; exists []; apply path_here|left; exact K|]. right. exists (attr_name b :: r). apply Pa. right. exists k, b, j', r. auto.
    + intros [K|(n & P)]; [auto|]. apply Pa in P. destruct P as [[-> ->]|(k & b & j' & r & K & -> & P)]; [auto|]. right. exists k, b, j'. split; [exact K|exists r; exact P].
  - intros j (n & P). apply Pa in P. destruct P as [[-> ->]|(k & b & j' & r & K & -> & P)]; [exact New|]. intros Q. apply (Wn j _ _ _ K (ex_intro _ r P)). right. exact Q.
  - intros j n n' P P'. apply Pa in P. apply Pa in P'.
    destruct P as [[-> E1]|(k & b & j1 & r & K & -> & P)]; destruct P' as [[-> E2]|(k' & b' & j1' & r' & K' & -> & P')]; [reflexivity| | |].
    + exfalso. subst j. apply (Wn i _ _ _ K' (ex_intro _ r' P')). left. reflexivity.
    + exfalso. subst j. apply (Wn i _ _ _ K (ex_intro _ r P)). left. reflexivity.
    + assert (k = k') by exact (Wa _ _ _ _ _ _ _ K K' (ex_intro _ r P) (ex_intro _ r' P')). subst k'.
      destruct K as (s & K1 & K2 & K3 & K4). destruct K' as (s' & K1' & K2' & K3' & K4'). rewrite K1 in K1'. inj K1'. rewrite K2 in K2'. inj K2'. rewrite K4 in K4'. inj K4'.
      f_equal. apply (Wo j k b' j1' r r'); [exists s'; auto|exact P|exact P'].
  - intros key g. rewrite B, Wl. split.
    + intros [K|[(k & s & a & K1 & K2 & K3 & K4 & -> & ->)|(k & b & j' & K & n & m' & c' & k' & s & a & P & K2)]]; [left; exact K| |].
      * right. exists [], m, c, k, s, a. cbn [fst snd]. repeat (split; [first [assumption|reflexivity|apply path_here]|]). reflexivity.
      * right. exists (attr_name b :: n), m', c', k', s, a. split; [apply Pa; right; exists k, b, j', n; auto|]. rewrite <- app_assoc in K2. exact K2.
    + intros [K|(n & m' & c' & k & s & a & P & K1 & K2 & K3 & K4 & K5 & K6 & K7 & K8)]; [left; exact K|right]. destruct key as [j nm]. cbn [fst snd] in *. apply Pa in P.
      destruct P as [[-> ->]|(k' & b & j' & r & Kc & -> & P)].
      * left. rewrite M in K1. inj K1. rewrite C in K2. inj K2. exists k, s, a. repeat (split; [first [assumption|reflexivity]|]). reflexivity.
      * right. exists k', b, j'. split; [exact Kc|]. exists r, m', c', k, s, a. cbn [fst snd]. repeat (split; [assumption|]). rewrite <- app_assoc. exact K8.
  - intros key e. rewrite D, We. split.
    + intros [[K|(k & b & j' & K & n & m' & c' & d & P & K2)]|(d & K1 & -> & ->)]; [left; exact K| |].
      * right. exists (attr_name b :: n), m', c', d. split; [apply Pa; right; exists k, b, j', n; auto|]. rewrite <- app_assoc in K2. exact K2.
      * right. exists [], m, c, d. cbn [fst snd]. repeat (split; [first [assumption|reflexivity|apply path_here]|]). reflexivity.
    + intros [K|(n & m' & c' & d & P & K1 & K2 & K3 & K4 & K5)]; [left; left; exact K|]. destruct key as [j nm]. cbn [fst snd] in *. apply Pa in P.
      destruct P as [[-> ->]|(k' & b & j' & r & Kc & -> & P)].
      * right. rewrite M in K1. inj K1. rewrite C in K2. inj K2. exists d. repeat (split; [first [assumption|reflexivity]|]). reflexivity.
      * left. right. exists k', b, j'. split; [exact Kc|]. exists r, m', c', d. cbn [fst snd]. repeat (split; [assumption|]). rewrite <- app_assoc. exact K5.
Qed.
End Traversal.
