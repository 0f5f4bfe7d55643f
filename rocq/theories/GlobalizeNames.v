(** Names of slots and functions, and the stores at the beginning. *)
From Coq Require Import Bool PeanoNat Ascii String Lia List.
From Verif Require Import Prelude GlobalizeModel GlobalizeSpec GlobalizeProofs GlobalizeGraph.
Import ListNotations.
Open Scope string_scope.
Open Scope list_scope.
Open Scope nat_scope.

(** ** Joining names with dots loses nothing *)
Lemma chars_append a b : list_ascii_of_string (String.append a b) = list_ascii_of_string a ++ list_ascii_of_string b.
Proof. induction a as [|c a IH]; [reflexivity|]. cbn. f_equal. exact IH. Qed.
Lemma chars_inj a b : list_ascii_of_string a = list_ascii_of_string b -> a = b.
Proof. intros H. rewrite <- (string_of_list_ascii_of_string a), <- (string_of_list_ascii_of_string b), H. reflexivity. Qed.
Lemma split_dot (a a' t t' : list ascii) : ~ In "."%char a -> ~ In "."%char a' -> a ++ "."%char :: t = a' ++ "."%char :: t' -> a = a' /\ t = t'.
Proof.
  revert a'. induction a as [|c a IH]; intros [|c' a'] N N' H; cbn [app] in H.
  - inj H. split; reflexivity.
  - injection H as H1 H2. exfalso. apply N'. left. symmetry. exact H1.
  - injection H as H1 H2. exfalso. apply N. left. exact H1.
  - injection H as H1 H2. subst c'. destruct (IH a') as [-> ->]; [intros K; apply N; right; exact K|intros K; apply N'; right; exact K|exact H2|split; reflexivity].
Qed.
Lemma concat_cons2 a b r : list_ascii_of_string (String.concat "." (a :: b :: r)) = list_ascii_of_string a ++ "."%char :: list_ascii_of_string (String.concat "." (b :: r)).
Proof. change (String.concat "." (a :: b :: r)) with (String.append a (String.append "." (String.concat "." (b :: r)))). rewrite !chars_append. reflexivity. Qed.
Lemma concat_inj l : forall l', l <> [] -> l' <> [] -> Forall dot_free l -> Forall dot_free l' -> String.concat "." l = String.concat "." l' -> l = l'.
Proof.
  induction l as [|a l IH]; intros [|a' l'] N N' F F' H; try congruence.
  inversion F as [|? ? F1 F2]; subst. inversion F' as [|? ? F1' F2']; subst.
  assert (H' : list_ascii_of_string (String.concat "." (a :: l)) = list_ascii_of_string (String.concat "." (a' :: l'))) by (rewrite H; reflexivity).
  destruct l as [|b l]; destruct l' as [|b' l'].
  - cbn in H. subst. reflexivity.
  - exfalso. rewrite concat_cons2 in H'. change (String.concat "." [a]) with a in H'. apply F1. rewrite H'. apply in_or_app. right. left. reflexivity.
  - exfalso. rewrite concat_cons2 in H'. change (String.concat "." [a']) with a' in H'. apply F1'. rewrite <- H'. apply in_or_app. right. left. reflexivity.
  - rewrite !concat_cons2 in H'. destruct (split_dot _ _ _ _ F1 F1' H') as [E1 E2]. apply chars_inj in E1. apply chars_inj in E2. subst a'. f_equal.
    apply IH; try discriminate; assumption.
Qed.

(** ** Different slots have different names *)
Section Slots.
Context (p : program) (named_well : well_named p).
Lemma find_class_in c d : find_class (classes p) c = Some d -> In d (classes p).
Proof. intros H. unfold find_class in H. apply find_some in H. apply H. Qed.
Lemma find_module_in i m : find_module (modules p) i = Some m -> In m (modules p).
Proof. intros H. unfold find_module in H. apply find_some in H. apply H. Qed.
Lemma same_attr c k k' a a' : In c (classes p) -> nth_error (attrs c) k = Some a -> nth_error (attrs c) k' = Some a' -> attr_name a = attr_name a' -> k = k'.
Proof.
  intros I H H' E. destruct named_well as (_ & N & _). specialize (N _ I).
  apply (proj1 (NoDup_nth_error (map attr_name (attrs c))) N).
  - rewrite map_length. apply nth_error_Some. rewrite H. discriminate.
  - rewrite (map_nth_error attr_name _ _ H), (map_nth_error attr_name _ _ H'), E. reflexivity.
Qed.
Lemma same_slot m k k' s s' : In m (modules p) -> nth_error (slots m) k = Some s -> nth_error (slots m) k' = Some s' -> slot_name s = slot_name s' -> k = k'.
Proof.
  intros I H H' E. destruct named_well as (_ & _ & N). specialize (N _ I).
  apply (proj1 (NoDup_nth_error (map slot_name (slots m))) N).
  - rewrite map_length. apply nth_error_Some. rewrite H. discriminate.
  - rewrite (map_nth_error slot_name _ _ H), (map_nth_error slot_name _ _ H'), E. reflexivity.
Qed.
Lemma edge_det i a j j' : edge p i a j -> edge p i a j' -> j = j'.
Proof.
  intros X Y. inversion X as [? m c k s b ? M C S A T V]; subst. inversion Y as [? m' c' k' s' b' ? M' C' S' A' T' V' E]; subst.
  rewrite M in M'. inj M'. rewrite C in C'. inj C'.
  assert (k = k') by (eapply same_attr; [eapply find_class_in; exact C|exact A|exact A'|congruence]). subst k'.
  rewrite S in S'. inj S'. congruence.
Qed.
Lemma path_det i names j j' : path p i names j -> path p i names j' -> j = j'.
Proof.
  revert i j j'. induction names as [|a names IH]; intros i j j' P P'; apply path_inv in P; apply path_inv in P'.
  - destruct P as [[_ ->]|(? & ? & ? & H & _)]; [|discriminate]. destruct P' as [[_ ->]|(? & ? & ? & H & _)]; [reflexivity|discriminate].
  - destruct P as [[H _]|(b & i1 & r & H & X & P)]; [discriminate|]. destruct P' as [[H' _]|(b' & i1' & r' & H' & X' & P')]; [discriminate|].
    inj H. injection H' as Hb Hr. subst b' r'. rewrite (edge_det _ _ _ _ X X') in P. exact (IH _ _ _ P P').
Qed.
Lemma path_dot_free i names j : path p i names j -> Forall dot_free names.
Proof.
  induction 1 as [|i names j m c k s a j' P IH M C S A T V]; [constructor|]. apply Forall_app. split; [exact IH|]. constructor; [|constructor].
  destruct named_well as (N & _). apply (N c a); [eapply find_class_in; exact C|eapply nth_error_In; exact A].
Qed.
Lemma links_apart used root i n g i' n' g' : gives_link p used root [] (i, n) g -> gives_link p used root [] (i', n') g' -> global_name g = global_name g' -> i = i' /\ n = n' /\ g = g'.
Proof.
  intros (ns & m & c & k & s & a & P & M & C & S & A & N & T & U & ->) (ns' & m' & c' & k' & s' & a' & P' & M' & C' & S' & A' & N' & T' & U' & ->).
  cbn [fst snd global_name app] in *. unfold join. intros H.
  assert (D : ns ++ [attr_name a] = ns' ++ [attr_name a']).
  { apply concat_inj; [destruct ns; discriminate|destruct ns'; discriminate| | |exact H].
    - apply Forall_app. split; [exact (path_dot_free _ _ _ P)|]. constructor; [|constructor]. destruct named_well as (W & _). apply (W c a); [eapply find_class_in; exact C|eapply nth_error_In; exact A].
    - apply Forall_app. split; [exact (path_dot_free _ _ _ P')|]. constructor; [|constructor]. destruct named_well as (W & _). apply (W c' a'); [eapply find_class_in; exact C'|eapply nth_error_In; exact A']. }
  apply app_inj_tail in D. destruct D as [-> D]. pose proof (path_det _ _ _ _ P P') as Q. subst i'.
  rewrite M in M'. inj M'. rewrite C in C'. inj C'.
  assert (k = k') by (eapply same_attr; [eapply find_class_in; exact C|exact A|exact A'|exact D]). subst k'.
  rewrite S in S'. inj S'. rewrite A in A'. inj A'. auto.
Qed.
Lemma global_in_link x i n h : global_in x i n = Some h -> exists g, In ((i, n), g) (links x) /\ global_name g = h.
Proof.
  unfold global_in. destruct (find _ (links x)) as [[[i' n'] g]|] eqn:F; [|discriminate]. cbn [option_map snd]. intros H. inj H. apply find_some in F. destruct F as [I Q]. cbn [fst snd] in Q.
  apply andb_prop in Q. destruct Q as [Q1 Q2]. apply Nat.eqb_eq in Q1. apply String.eqb_eq in Q2. subst. exists g. split; [exact I|reflexivity].
Qed.
Lemma link_global_in x i n g : In ((i, n), g) (links x) -> exists h, global_in x i n = Some h.
Proof.
  intros I. unfold global_in. destruct (find (fun e => (fst (fst e) =? i) && String.eqb (snd (fst e)) n) (links x)) as [e|] eqn:F; [exists (global_name (snd e)); reflexivity|].
  exfalso. apply (find_none _ _ F) in I. cbn in I. rewrite Nat.eqb_refl, String.eqb_refl in I. discriminate.
Qed.
End Slots.

(** ** What the analysis finds *)
Lemma slot_used_spec used m n : slot_used used m n = true <-> In (Mod (module_class m), n) used.
Proof.
  unfold slot_used. rewrite existsb_exists. split.
  - intros ([t n'] & I & Q). cbn [fst snd] in Q. apply andb_prop in Q. destruct Q as [Q1 Q2]. apply String.eqb_eq in Q2. subst n'.
    destruct t as [c|]; [|discriminate]. cbn in Q1. apply String.eqb_eq in Q1. subst c. exact I.
  - intros I. exists (Mod (module_class m), n). split; [exact I|]. cbn. rewrite !String.eqb_refl. reflexivity.
Qed.
Lemma find_root_spec l r : find_root l = Some r -> In r l /\ is_used l (module_id r) = false /\ forall r', In r' l -> is_used l (module_id r') = false -> r' = r.
Proof.
  unfold find_root. destruct (filter _ l) as [|a [|b t]] eqn:F; try discriminate. intros H. inj H.
  assert (S : forall m, In m [r] <-> In m l /\ negb (is_used l (module_id m)) = true) by (intros m; rewrite <- F; apply filter_In).
  destruct (proj1 (S r) (or_introl eq_refl)) as [I U]. split; [exact I|]. apply negb_true_iff in U. split; [exact U|].
  intros r' I' U'. assert (K : In r' [r]) by (apply S; split; [exact I'|rewrite U'; reflexivity]). destruct K as [->|[]]. reflexivity.
Qed.
Lemma is_used_spec p i : is_used (modules p) i = true <-> held_by p i.
Proof.
  unfold is_used, held_by. rewrite existsb_exists. split.
  - intros (m & I & K). apply existsb_exists in K. destruct K as (s & Is & K). destruct (slot_value_of s) as [j|] eqn:V; [|discriminate]. apply Nat.eqb_eq in K. subst j. exists m, s. auto.
  - intros (m & s & I & Is & V). exists m. split; [exact I|]. apply existsb_exists. exists s. split; [exact Is|]. rewrite V. apply Nat.eqb_refl.
Qed.
Lemma analyze_spec p x : analyze p = Some x -> exists root, find_root (modules p) = Some root /\ traversed p (all_accesses p) (module_id root) [] no_info x.
Proof.
  unfold analyze. destruct (find_root (modules p)) as [r|]; [|discriminate]. cbn [obind]. destruct (forallb _ _); [|discriminate]. cbn [guard obind]. intros H.
  exists r. split; [reflexivity|]. eapply traverse_spec. exact H.
Qed.
Lemma link_held p x root i n g : traversed p (all_accesses p) root [] no_info x -> In ((i, n), g) (links x) <-> held p root i n g.
Proof.
  intros T. rewrite (t_links _ _ _ _ _ _ T). cbn [no_info links In]. unfold gives_link, held. cbn [fst snd app]. split.
  - intros [[]|(ns & m & c & k & s & a & P & M & C & S & A & N & D & U & ->)]. apply slot_used_spec in U. exists ns, m, c, k, s, a. auto 10.
  - intros (ns & m & c & k & s & a & P & M & C & S & A & N & D & U & ->). right. apply slot_used_spec in U. exists ns, m, c, k, s, a. auto 10.
Qed.
Lemma one_slot p x root : well_named p -> traversed p (all_accesses p) root [] no_info x -> forall i n i' n' h, global_in x i n = Some h -> global_in x i' n' = Some h -> i = i' /\ n = n'.
Proof.
  intros W T i n i' n' h H H'. destruct (global_in_link _ _ _ _ H) as (g & G & E). destruct (global_in_link _ _ _ _ H') as (g' & G' & E').
  apply (t_links _ _ _ _ _ _ T) in G. apply (t_links _ _ _ _ _ _ T) in G'. destruct G as [[]|G]. destruct G' as [[]|G'].
  destruct (links_apart _ W _ _ _ _ _ _ _ _ G G' (eq_trans E (eq_sym E'))) as (A & B & _). split; assumption.
Qed.
Lemma first_agree w p x root constant : well_named p -> traversed p (all_accesses p) root [] no_info x ->
  agree w (modules p) (global_in x) (first_store w p constant) (first_gstore w (map snd (links x)) constant).
Proof.
  intros W T. split.
  - intros i n d h S H. destruct (global_in_link _ _ _ _ H) as (g & G & E).
    unfold first_store in S. destruct (find_module (modules p) i) as [m|] eqn:M; [|discriminate]. cbn [obind] in S.
    destruct (find_slot m n) as [s|] eqn:Fs; [|discriminate]. cbn [obind] in S. destruct (slot_value_of s) as [j|c0] eqn:V; [discriminate|]. inj S.
    assert (Ig : initial g = Constant c0).
    { apply (t_links _ _ _ _ _ _ T) in G. destruct G as [[]|(ns & m' & c & k & s' & a & P & M' & C & S & A & N & D & U & ->)]. cbn [fst snd initial] in *.
      rewrite M in M'. inj M'. unfold find_slot in Fs. apply find_some in Fs. destruct Fs as [Is Q]. apply String.eqb_eq in Q.
      apply In_nth_error in Is. destruct Is as (k' & S').
      assert (k = k') by (eapply (same_slot _ W); [eapply find_module_in; exact M|exact S|exact S'|congruence]). subst k'. rewrite S in S'. inj S'. exact V. }
    unfold first_gstore. destruct (find _ (map snd (links x))) as [g'|] eqn:F.
    + apply find_some in F. destruct F as [I Q]. apply String.eqb_eq in Q. apply in_map_iff in I. destruct I as ([[i' n'] g''] & <- & I). cbn [snd] in *.
      apply (t_links _ _ _ _ _ _ T) in G. apply (t_links _ _ _ _ _ _ T) in I. destruct G as [[]|G]. destruct I as [[]|I].
      destruct (links_apart _ W _ _ _ _ _ _ _ _ G I (eq_trans eq_refl (eq_sym Q))) as (_ & _ & <-). cbn [obind]. rewrite Ig. reflexivity.
    + exfalso. assert (I : In g (map snd (links x))) by (apply in_map_iff; exists ((i, n), g); auto). apply (find_none _ _ F) in I. cbn in I. rewrite String.eqb_refl in I. discriminate.
  - intros i n j S. unfold first_store in S. destruct (find_module (modules p) i) as [m|] eqn:M; [|discriminate]. cbn [obind] in S.
    destruct (find_slot m n) as [s|] eqn:Fs; [|discriminate]. cbn [obind] in S. destruct (slot_value_of s) as [j'|c0] eqn:V; [|discriminate]. inj S. exists m, s. auto.
Qed.

(** ** Names of functions *)
Lemma named_spec p x : forall ms u l, named p x u ms = Some l ->
  map fst l = ms /\
  forall m e, In (m, e) l -> export_of x m = Some e \/ (export_of x m = None /\ exists f k, u <= k < u + List.length ms /\ find_function (functions p) (fst m) = Some f /\ e = (String.append (fst m) (String.append "$" (decimal (S k) k)), function_private f)).
Proof.
  induction ms as [|m ms IH]; intros u l; cbn [named].
  - intros H. inj H. split; [reflexivity|intros m e []].
  - destruct (find_function (functions p) (fst m)) as [f|] eqn:F; [|discriminate]. cbn [obind].
    destruct (export_of x m) as [e|] eqn:X.
    + destruct (named p x u ms) as [r|] eqn:R; [|discriminate]. cbn [obind]. intros H. inj H. destruct (IH _ _ R) as [A B]. split; [cbn; f_equal; exact A|].
      intros m' e' [K|K]; [inj K; left; exact X|]. destruct (B _ _ K) as [Q|(Q & f' & k & L & Q2 & Q3)]; [left; exact Q|right; split; [exact Q|exists f', k; cbn [List.length]; split; [lia|auto]]].
    + destruct (named p x (S u) ms) as [r|] eqn:R; [|discriminate]. cbn [obind]. intros H. inj H. destruct (IH _ _ R) as [A B]. split; [cbn; f_equal; exact A|].
      intros m' e' [K|K]; [inj K; right; split; [exact X|exists f, u; cbn [List.length]; split; [lia|auto]]|].
      destruct (B _ _ K) as [Q|(Q & f' & k & L & Q2 & Q3)]; [left; exact Q|right; split; [exact Q|exists f', k; cbn [List.length]; split; [lia|auto]]].
Qed.
Lemma export_of_in x m e : export_of x m = Some e -> exists i r, snd m = (0, i) :: r /\ In ((i, fst m), e) (exports x).
Proof.
  unfold export_of. destruct (snd m) as [|[[|k] i] r]; try discriminate. destruct (find _ (exports x)) as [[[i' f'] e']|] eqn:F; [|discriminate]. cbn [option_map snd]. intros H. inj H.
  apply find_some in F. destruct F as [I Q]. cbn [fst snd] in Q. apply andb_prop in Q. destruct Q as [Q1 Q2]. apply Nat.eqb_eq in Q1. apply String.eqb_eq in Q2. subst. exists i, r. auto.
Qed.
Lemma export_of_none x m i r e : export_of x m = None -> snd m = (0, i) :: r -> ~ In ((i, fst m), e) (exports x).
Proof.
  unfold export_of. intros H E I. rewrite E in H. destruct (find _ (exports x)) eqn:F; [discriminate|]. apply (find_none _ _ F) in I. cbn in I. rewrite Nat.eqb_refl, String.eqb_refl in I. discriminate.
Qed.
Lemma read_append a b n : read_decimal n (String.append a b) = read_decimal (read_decimal n a) b.
Proof. revert n. induction a as [|c a IH]; intros n; [reflexivity|]. cbn. apply IH. Qed.
Lemma read_digit n d : d < 10 -> read_decimal n (digit d) = 10 * n + d.
Proof. intros H. do 10 (destruct d as [|d]; [cbn; lia|]). lia. Qed.
Lemma read_decimal_decimal fuel n : n < fuel -> read_decimal 0 (decimal fuel n) = n.
Proof.
  revert n. induction fuel as [|fuel IH]; intros n H; [lia|]. cbn [decimal]. destruct (n <? 10) eqn:L.
  - apply Nat.ltb_lt in L. rewrite read_digit by exact L. lia.
  - apply Nat.ltb_ge in L. rewrite read_append, IH.
    + rewrite read_digit by (apply Nat.mod_upper_bound; lia). symmetry. apply Nat.div_mod. lia.
    + assert (n / 10 < n) by (apply Nat.div_lt; lia). lia.
Qed.

(** ** Checks *)
Definition uses_all := fix all (l : list op) : list value := match l with [] => [] | o :: r => plain_uses o ++ all r end.
Lemma plain_app a b : plain (a ++ b) = plain a && plain b.
Proof. unfold plain. apply forallb_app. Qed.
Lemma conforms_spec : (forall o, conforms o = plain (plain_uses o)) /\ (forall b, conforms_in b = plain (plain_uses_in b)).
Proof.
  assert (X : forall b, conforms_in b = plain (plain_uses_in b)).
  { apply (block_tree (fun o => conforms o = plain (plain_uses o)) (fun b => conforms_in b = plain (plain_uses_in b))); try reflexivity.
    - intros rs c b b' H H'. rewrite conforms_if, H, H'. change (plain_uses (If rs c b b')) with ([c] ++ plain_uses_in b ++ plain_uses_in b'). rewrite !plain_app. rewrite andb_assoc. reflexivity.
    - intros rs n c inits params b H. rewrite conforms_loop, H. change (plain_uses (Loop rs n c inits params b)) with ([n; c] ++ inits ++ plain_uses_in b). rewrite !plain_app. rewrite andb_assoc. reflexivity.
    - intros body y F. rewrite conforms_block. change (plain_uses_in (Block body y)) with (uses_all body ++ y). rewrite plain_app. f_equal.
      induction F as [|o l Ho _ IH]; [reflexivity|]. cbn [conforms_ops uses_all]. rewrite plain_app, Ho, IH. reflexivity. }
  split; [|exact X]. intros [r x n|x n v|rs f args|k rs args|rs c b b'|rs n c inits params b]; try reflexivity.
  - rewrite conforms_if, !X. change (plain_uses (If rs c b b')) with ([c] ++ plain_uses_in b ++ plain_uses_in b'). rewrite !plain_app. rewrite andb_assoc. reflexivity.
  - rewrite conforms_loop, X. change (plain_uses (Loop rs n c inits params b)) with ([n; c] ++ inits ++ plain_uses_in b). rewrite !plain_app. rewrite andb_assoc. reflexivity.
Qed.
Lemma count_one f ms : NoDup ms -> count f ms <= 1 <-> forall m m', In m ms -> In m' ms -> fst m = f -> fst m' = f -> m = m'.
Proof.
  intros N. unfold count. assert (N' := NoDup_filter (fun m : mono => String.eqb (fst m) f) N).
  assert (S : forall m, In m (filter (fun m : mono => String.eqb (fst m) f) ms) <-> In m ms /\ fst m = f) by (intros m; rewrite filter_In, String.eqb_eq; reflexivity).
  unfold mono in *. destruct (filter _ ms) as [|a [|b t]].
  - split; [|cbn; lia]. intros _ m m' I _ E _. destruct (proj2 (S m) (conj I E)).
  - split; [|cbn; lia]. intros _ m m' I I' E E'. destruct (proj2 (S m) (conj I E)) as [<-|[]]. destruct (proj2 (S m') (conj I' E')) as [<-|[]]. reflexivity.
  - split; [cbn; lia|]. intros H. exfalso. inversion N' as [|? ? K _]; subst. apply K.
    destruct (proj1 (S a) (or_introl eq_refl)) as [A1 A2]. destruct (proj1 (S b) (or_intror (or_introl eq_refl))) as [B1 B2]. left. apply H; assumption.
Qed.
Lemma trivial_some p : forall args k l, trivial p k args = Some l -> forall q i, In (q, i) l <-> exists v c, k <= q /\ nth_error args (q - k) = Some (v, Mod c) /\ only_instance p c i.
Proof.
  induction args as [|[v [c|]] args IH]; intros k l; cbn [trivial].
  - intros H q i. inj H. split; [intros []|]. intros (v & c & _ & H & _). destruct (q - k); discriminate.
  - unfold instances_in. destruct (filter (fun m => String.eqb (module_class m) c) (modules p)) as [|m [|m' t]] eqn:F; try discriminate. cbn [map].
    destruct (trivial p (S k) args) as [r|] eqn:R; [|discriminate]. cbn [obind]. intros H q i. inj H. cbn [In]. rewrite (IH _ _ R). split.
    + intros [K|(v' & c' & L & K1 & K2)].
      * inj K. exists v, c. split; [lia|]. rewrite Nat.sub_diag. split; [reflexivity|]. exists m. auto.
      * exists v', c'. split; [lia|]. replace (q - k) with (S (q - S k)) by lia. auto.
    + intros (v' & c' & L & K1 & m' & K2 & K3). destruct (Nat.eq_dec q k) as [->|D].
      * rewrite Nat.sub_diag in K1. cbn in K1. inj K1. rewrite F in K2. inj K2. left. reflexivity.
      * right. exists v', c'. split; [lia|]. replace (q - k) with (S (q - S k)) in K1 by lia. split; [exact K1|exists m'; auto].
  - intros H q i. rewrite (IH _ _ H). split.
    + intros (v' & c' & L & K1 & K2). exists v', c'. split; [lia|]. replace (q - k) with (S (q - S k)) by lia. auto.
    + intros (v' & c' & L & K1 & K2). destruct (Nat.eq_dec q k) as [->|D]; [rewrite Nat.sub_diag in K1; discriminate|]. exists v', c'. split; [lia|]. replace (q - k) with (S (q - S k)) in K1 by lia. auto.
Qed.
Lemma trivial_none p : forall args k, trivial p k args = None <-> exists q v c, nth_error args q = Some (v, Mod c) /\ forall i, ~ only_instance p c i.
Proof.
  induction args as [|[v [c|]] args IH]; intros k; cbn [trivial].
  - split; [discriminate|]. intros ([|q] & v & c & H & _); discriminate.
  - unfold instances_in. destruct (filter (fun m => String.eqb (module_class m) c) (modules p)) as [|m [|m' t]] eqn:F; cbn [map].
    + split; [intros _|reflexivity]. exists 0, v, c. split; [reflexivity|]. intros i (m & K & _). rewrite F in K. discriminate.
    + destruct (trivial p (S k) args) as [r|] eqn:R; cbn [obind].
      * split; [discriminate|]. intros ([|q] & v' & c' & H & K); cbn in H; [inj H; exfalso; apply (K (module_id m)); exists m; auto|].
        exfalso. assert (Z : @None (list (nat * nat)) = None) by reflexivity. assert (Y : trivial p (S k) args = None) by (apply IH; exists q, v', c'; auto). congruence.
      * split; [intros _|reflexivity]. apply IH in R. destruct R as (q & v' & c' & H). exists (S q), v', c'. exact H.
    + split; [intros _|reflexivity]. exists 0, v, c. split; [reflexivity|]. intros i (m0 & K & _). rewrite F in K. discriminate.
  - rewrite IH. split.
    + intros (q & v' & c' & H). exists (S q), v', c'. exact H.
    + intros ([|q] & v' & c' & H & K); [discriminate|]. exists q, v', c'. auto.
Qed.

(** ** The attributes read or written *)
Definition accesses_all := fix all (l : list op) : list (vtype * string) := match l with [] => [] | o :: r => accesses o ++ all r end.
Lemma accesses_all_in l a : In a (accesses_all l) <-> exists o, In o l /\ In a (accesses o).
Proof.
  induction l as [|o l IH]; cbn [accesses_all In]; [split; [intros []|intros (o & [] & _)]|]. rewrite in_app_iff, IH. split.
  - intros [H|(o' & H & K)]; [exists o; auto|exists o'; auto].
  - intros (o' & [->|H] & K); [auto|right; exists o'; auto].
Qed.
Lemma accesses_sound : forall b a, In a (accesses_in b) -> exists o, inside o b /\ touches o a.
Proof.
  apply (block_tree (fun o => forall a, In a (accesses o) -> touches o a \/ (exists rs c b b', o = If rs c b b' /\ exists o', (inside o' b \/ inside o' b') /\ touches o' a) \/ (exists rs n c i q b, o = Loop rs n c i q b /\ exists o', inside o' b /\ touches o' a))
           (fun b => forall a, In a (accesses_in b) -> exists o, inside o b /\ touches o a)).
  - intros r [x t] n a [<-|[]]. left. exists x. left. exists r. reflexivity.
  - intros [x t] n v a [<-|[]]. left. exists x. right. exists v. reflexivity.
  - intros rs f args a [].
  - intros k rs args a [].
  - intros rs c b b' H H' a K. change (In a (accesses_in b ++ accesses_in b')) in K. apply in_app_iff in K. right. left. exists rs, c, b, b'. split; [reflexivity|].
    destruct K as [K|K]; [destruct (H _ K) as (o & I & T)|destruct (H' _ K) as (o & I & T)]; exists o; auto.
  - intros rs n c i q b H a K. change (In a (accesses_in b)) in K. right. right. exists rs, n, c, i, q, b. split; [reflexivity|]. exact (H _ K).
  - intros body y F a K. change (In a (accesses_all body)) in K. apply accesses_all_in in K. destruct K as (o & I & K). rewrite Forall_forall in F.
    destruct (F o I a K) as [T|[(rs & c & b & b' & -> & o' & [J|J] & T)|(rs & n & c & i & q & b & -> & o' & J & T)]].
    + exists o. split; [constructor; exact I|exact T].
    + exists o'. split; [eapply inside_then; eassumption|exact T].
    + exists o'. split; [eapply inside_else; eassumption|exact T].
    + exists o'. split; [eapply inside_loop; eassumption|exact T].
Qed.
Lemma accesses_complete o b a : inside o b -> touches o a -> In a (accesses_in b).
Proof.
  induction 1 as [o body y I|o rs c b b' body y I H IH|o rs c b b' body y I H IH|o rs n c i q b body y I H IH]; intros T; apply accesses_all_in.
  - exists o. split; [exact I|]. destruct a as [t n]. destruct T as (x & [(r & ->)|(v & ->)]); left; reflexivity.
  - exists (If rs c b b'). split; [exact I|]. apply (in_or_app (accesses_in b) (accesses_in b')). left. exact (IH T).
  - exists (If rs c b b'). split; [exact I|]. apply (in_or_app (accesses_in b) (accesses_in b')). right. exact (IH T).
  - exists (Loop rs n c i q b). split; [exact I|]. exact (IH T).
Qed.
Lemma all_accesses_spec p a : In a (all_accesses p) <-> exists f o, In f (functions p) /\ inside o (body_of f) /\ touches o a.
Proof.
  unfold all_accesses. rewrite in_flat_map. split.
  - intros (f & I & K). apply accesses_sound in K. destruct K as (o & J & T). exists f, o. auto.
  - intros (f & o & I & J & T). exists f. split; [exact I|]. exact (accesses_complete _ _ _ J T).
Qed.
Lemma known_access_spec p t n : known_access (modules p) (t, n) = true <-> exists m s, In m (modules p) /\ In s (slots m) /\ t = Mod (module_class m) /\ slot_name s = n.
Proof.
  destruct t as [c|]; cbn [known_access].
  - rewrite existsb_exists. split.
    + intros (m & I & K). apply andb_prop in K. destruct K as [K1 K2]. apply String.eqb_eq in K1. apply existsb_exists in K2. destruct K2 as (s & J & K2). apply String.eqb_eq in K2. exists m, s. subst. auto.
    + intros (m & s & I & J & E & <-). inj E. exists m. split; [exact I|]. rewrite String.eqb_refl. cbn. apply existsb_exists. exists s. split; [exact J|apply String.eqb_refl].
  - split; [discriminate|]. intros (m & s & _ & _ & E & _). discriminate.
Qed.
