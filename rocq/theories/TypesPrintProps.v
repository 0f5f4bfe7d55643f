(** C54: printed types parse back to themselves. *)
From Coq Require Import ZArith Lia Bool String List.
From Verif Require Import Prelude DtypeModel TypesModel TypesSpec TypesProps.
Import ListNotations.
Open Scope list_scope.
Open Scope Z_scope.

(** ** Verification *)
Lemma valid_element d : isValidTorchDtype d = true <-> torch_element d.
Proof.
  assert (W : forall w s, match s with Signless => w =? 1 | _ => existsb (Z.eqb w) [4; 8; 16; 32; 64] end = true <-> torch_integer w s).
  { intros w s. unfold torch_integer. destruct s; cbn [existsb]; rewrite ?Bool.orb_true_iff, ?Z.eqb_eq; intuition (discriminate || congruence). }
  unfold isValidTorchDtype, torch_element. destruct d as [m| |]; [|split; auto..].
  destruct m as [w s|f|e| | | | | | | |]; cbn [plain_element]; try (split; [auto; discriminate|auto; intros []]); try apply W; try (split; auto; fail).
  destruct e as [w s|f|e| | | | | | | |]; cbn [plain_element]; try (split; [auto; discriminate|auto; intros []]); try apply W.
Qed.
(** C54: what is checked of a tensor type. *)
Theorem C54_verification_exact venc s d e : verifyTensorType venc s d e = true <->
  (forall x, d = Some x -> torch_element x) /\
  (forall l, s = Some l -> Forall size_ok l) /\
  (forall x, e = Some x -> (exists k, x = SparseE k) /\ (forall l y, s = Some l -> d = Some y -> venc x l y = true)).
Proof.
  unfold verifyTensorType. rewrite !Bool.andb_true_iff.
  assert (S : forall l, forallb (fun x => negb ((x <? 0) && negb (x =? unknown_size))) l = true <-> Forall size_ok l).
  { intros l. rewrite forallb_forall, Forall_forall. unfold size_ok, unknown_size.
    split; intros H x I; specialize (H x I); destruct (Z.ltb_spec x 0), (Z.eqb_spec x (-1)); cbn in *; try discriminate; try reflexivity; lia. }
  assert (A : match d with Some x => isValidTorchDtype x | None => true end = true <-> (forall x, d = Some x -> torch_element x)).
  { destruct d as [x|]; [rewrite valid_element; split; [intros H y [= <-]; exact H|auto]|split; [discriminate|reflexivity]]. }
  assert (B : match s with Some l => forallb (fun x => negb ((x <? 0) && negb (x =? unknown_size))) l | None => true end = true <-> (forall l, s = Some l -> Forall size_ok l)).
  { destruct s as [x|]; [rewrite S; split; [intros H y [= <-]; exact H|auto]|split; [discriminate|reflexivity]]. }
  rewrite A, B. assert (C : match e with Some enc => (match s with Some l => match d with Some x => venc enc l x | None => true end | None => true end) && match enc with SparseE _ => true | OtherE _ => false end | None => true end = true <->
    (forall x, e = Some x -> (exists k, x = SparseE k) /\ (forall l y, s = Some l -> d = Some y -> venc x l y = true))).
  { destruct e as [x|]; [|split; [discriminate|reflexivity]]. rewrite Bool.andb_true_iff. split.
    - intros [V K] y [= <-]. split; [destruct x; [eauto|discriminate]|]. intros l z -> ->. exact V.
    - intros H. destruct (H x eq_refl) as [[k ->] V]. split; [|reflexivity]. destruct s, d; auto. }
  rewrite C. tauto.
Qed.

(** ** Sizes *)
Lemma print_sizes_cons x r : print_sizes (x :: r) = print_size x :: flat_map (fun y => [Comma; print_size y]) r.
Proof. revert x. induction r as [|y r IH]; intros x; [reflexivity|]. change (print_sizes (x :: y :: r)) with (print_size x :: Comma :: print_sizes (y :: r)). rewrite IH. reflexivity. Qed.
Lemma parse_sizes_tail r rest : Forall size_ok r ->
  parse_sizes false (flat_map (fun y => [Comma; print_size y]) r ++ RSquare :: rest) = (r, RSquare :: rest).
Proof.
  induction 1 as [|x r O _ IH]; [reflexivity|]. cbn [flat_map app]. unfold size_ok in *. unfold print_size at 1.
  destruct (Z.ltb_spec x 0).
  - cbn [parse_sizes]. rewrite IH. replace x with unknown_size by (unfold unknown_size; lia). reflexivity.
  - cbn [parse_sizes]. rewrite IH. reflexivity.
Qed.
Lemma parse_print_sizes l rest : Forall size_ok l -> parse_sizes true (print_sizes l ++ RSquare :: rest) = (l, RSquare :: rest).
Proof.
  destruct l as [|x r]; [reflexivity|]. intros F. apply Forall_cons_iff in F as [O F]. rewrite print_sizes_cons. cbn [app].
  unfold size_ok in *. unfold print_size at 1. destruct (Z.ltb_spec x 0); cbn [parse_sizes]; rewrite (parse_sizes_tail r rest F).
  - replace x with unknown_size by (unfold unknown_size; lia). reflexivity.
  - reflexivity.
Qed.

(** ** Tensor types *)
Definition no_less (l : list token) : Prop := match l with Less :: _ => False | _ => True end.
Lemma parse_print_tensor venc t rest : printable venc t -> no_less rest ->
  parseTensorType venc (value_semantics t) (printTensorType (sizes t) (elt t) (sparsity t) ++ rest) = Some (t, rest).
Proof.
  intros (D & Z & E) N.
  assert (V : verifyTensorType venc (sizes t) (elt t) (sparsity t) = true).
  { apply C54_verification_exact. split; [exact D|split].
    - intros l Hl. unfold sizes_ok in Z. rewrite Hl in Z. exact Z.
    - intros x Hx. destruct (E x Hx) as (_ & A & B). auto. }
  destruct t as [vs s d e]; cbn [value_semantics sizes elt sparsity] in *. unfold sizes_ok in Z; cbn [sizes] in Z.
  destruct s as [l|].
  - unfold printTensorType. cbn [app]. unfold parseTensorType. cbn [expect is_lsquare obind app]. rewrite <- !app_assoc. cbn [app].
    rewrite parse_print_sizes by exact Z. cbn [expect is_rsquare is_comma obind app].
    destruct d as [d|], e as [e|]; cbn [expect is_greater obind app]; rewrite V; reflexivity.
  - destruct d as [d|]; [unfold printTensorType, parseTensorType; destruct e as [e|]; cbn [expect is_greater is_comma obind app]; rewrite V; reflexivity|].
    destruct e as [e|]; [destruct (E e eq_refl) as [[[]|[]] _]; reflexivity|].
    cbn [printTensorType app]. destruct rest as [|[] rest]; try reflexivity. destruct N.
Qed.

(** ** All types *)
Lemma all_tensors_list P ts : (fix go l := match l with [] => True | u :: l' => all_tensors P u /\ go l' end) ts <-> Forall (all_tensors P) ts.
Proof.
  induction ts as [|t ts IH]; [split; auto|]. rewrite IH. split; [intros []; constructor; auto|inversion 1; auto].
Qed.
Lemma parse_atom_mnemonic a : parse_atom (mnemonic a) = Some a. Proof. destruct a; reflexivity. Qed.
Lemma tsize_list ts t : In t ts -> (tsize t <= list_sum (map tsize ts))%nat. Proof. apply tsize_in. Qed.
Lemma parse_multi_print p ts : forall rest n, ts <> [] -> (length ts <= n)%nat ->
  (forall t r, In t ts -> no_less r -> p (print t ++ r) = Some (t, r)) ->
  parse_multi p n (commas (map print ts) ++ Greater :: rest) = Some (ts, rest).
Proof.
  induction ts as [|t ts IH]; intros rest n NE L H; [congruence|]. destruct n as [|n]; [cbn in L; lia|].
  destruct ts as [|u ts].
  - cbn [map commas parse_multi]. rewrite H by (cbn; auto). reflexivity.
  - change (commas (map print (t :: u :: ts))) with (print t ++ Comma :: commas (map print (u :: ts))).
    rewrite <- app_assoc. cbn [parse_multi]. rewrite H by (cbn; auto). cbn [obind app].
    rewrite IH; [reflexivity|discriminate|cbn [length] in *; lia|]. intros v r I. apply H. right. exact I.
Qed.
Lemma length_tsize ts : (length ts <= list_sum (map tsize ts))%nat.
Proof. induction ts as [|t ts IH]; [cbn; lia|]. cbn [length map list_sum fold_right]. unfold list_sum in IH. pose proof (tsize_pos t). lia. Qed.
Lemma print_starts t : exists w r, print t = Word w :: r.
Proof. destruct t; cbn; eauto. Qed.
Lemma parse_print venc fuel : forall t rest, (tsize t <= fuel)%nat -> all_tensors (printable venc) t -> no_less rest ->
  parse venc fuel (print t ++ rest) = Some (t, rest).
Proof.
  induction fuel as [|fuel IH]; intros t rest L P N; [pose proof (tsize_pos t); lia|].
  assert (M : forall ts rest, (list_sum (map tsize ts) <= fuel)%nat -> Forall (all_tensors (printable venc)) ts ->
    (do r <- expect is_less (Less :: commas (map print ts) ++ Greater :: rest);
     match r with Greater :: r => Some ([], r) | _ => parse_multi (parse venc fuel) fuel r end) = Some (ts, rest)).
  { clear - IH. intros ts rest L F. cbn [expect is_less obind]. destruct ts as [|t ts]; [reflexivity|].
    transitivity (parse_multi (parse venc fuel) fuel (commas (map print (t :: ts)) ++ Greater :: rest)).
    - destruct (print_starts t) as (w & r & E). destruct ts; cbn [map commas]; rewrite E; reflexivity.
    - apply parse_multi_print; [discriminate|pose proof (length_tsize (t :: ts)); lia|].
      intros u r I N. apply IH; auto.
      + pose proof (tsize_in u _ I). lia.
      + rewrite Forall_forall in F. auto. }
  destruct t as [a|n|u|u|ts|ts|k v|u]; cbn [print]; cbn [tsize] in L; cbn [all_tensors] in P.
  - destruct a; reflexivity.
  - reflexivity.
  - cbn [app parse String.eqb Ascii.eqb Bool.eqb]. rewrite <- app_assoc. cbn [expect is_less obind]. rewrite IH by (cbn; auto; lia). reflexivity.
  - cbn [app parse String.eqb Ascii.eqb Bool.eqb]. rewrite <- app_assoc. cbn [expect is_less obind]. rewrite IH by (cbn; auto; lia). reflexivity.
  - apply all_tensors_list in P. specialize (M ts rest ltac:(lia) P). cbn [app parse String.eqb Ascii.eqb Bool.eqb]. rewrite <- app_assoc.
    change ([Greater] ++ rest) with (Greater :: rest). rewrite M. reflexivity.
  - apply all_tensors_list in P. specialize (M ts rest ltac:(lia) P). cbn [app parse String.eqb Ascii.eqb Bool.eqb]. rewrite <- app_assoc.
    change ([Greater] ++ rest) with (Greater :: rest). rewrite M. reflexivity.
  - cbn [app parse String.eqb Ascii.eqb Bool.eqb]. rewrite <- !app_assoc. cbn [expect is_less obind app]. destruct P as [Pk Pv].
    rewrite IH by (cbn; auto; lia). cbn [expect is_comma obind]. rewrite <- app_assoc. rewrite IH by (cbn; auto; lia). reflexivity.
  - pose proof (parse_print_tensor venc u rest P N) as T. cbn [app].
    destruct (value_semantics u) eqn:V; cbn [app parse String.eqb Ascii.eqb Bool.eqb]; rewrite T; reflexivity.
Qed.
(** C54: a type whose tensor types pass verification, and whose storage is only given together with sizes or an
    element type, is parsed back from its printed form, whatever follows it. *)
Theorem C54_print_parse_round_trip venc t rest : all_tensors (printable venc) t -> no_less rest ->
  exists n, forall fuel, (n <= fuel)%nat -> parse venc fuel (print t ++ rest) = Some (t, rest).
Proof. intros P N. exists (tsize t). intros fuel L. apply parse_print; auto. Qed.
Example C54_nonvacuous :
  let t := Tuple [Optional (Tens {| value_semantics := true; sizes := Some [2; -1]; elt := Some (Builtin (IntT 64 Signed)); sparsity := Some (SparseE 7) |});
                  Dict (Atom StringA) (Union [Atom IntA; Tens {| value_semantics := false; sizes := None; elt := None; sparsity := None |}; Module "a.b"])] in
  all_tensors (printable (fun _ _ _ => true)) t /\
  parse (fun _ _ _ => true) 20 (print t) = Some (t, []).
Proof.
  cbn zeta. split; [|reflexivity]. cbn [all_tensors]. split; [|split; [|exact I]].
  - split; [|split].
    + intros d [= <-]. cbn. unfold torch_integer. right. split; [discriminate|tauto].
    + cbn. repeat constructor; unfold size_ok; lia.
    + intros e [= <-]. cbn. split; [left; discriminate|]. split; [eauto|reflexivity].
  - split; [exact I|]. split; [exact I|]. split; [|auto]. split; [discriminate|]. split; [exact I|discriminate].
Qed.
(** C54: different types print differently. *)
Theorem C54_printing_injective venc t u : all_tensors (printable venc) t -> all_tensors (printable venc) u -> print t = print u -> t = u.
Proof.
  intros P Q E. destruct (C54_print_parse_round_trip venc t [] P I) as [n H]. destruct (C54_print_parse_round_trip venc u [] Q I) as [m K].
  specialize (H (n + m)%nat ltac:(lia)). specialize (K (n + m)%nat ltac:(lia)). rewrite E, K in H. congruence.
Qed.
(** C54: everything parsed passes verification. *)
Definition verified venc (t : tensor_type) : Prop := verifyTensorType venc (sizes t) (elt t) (sparsity t) = true.
Lemma parse_tensor_verified venc vs l t r : parseTensorType venc vs l = Some (t, r) -> verified venc t /\ value_semantics t = vs.
Proof.
  unfold parseTensorType. intros H. assert (B : Some ({| value_semantics := vs; sizes := None; elt := None; sparsity := None |}, l) = Some (t, r) -> verified venc t /\ value_semantics t = vs)
    by (intros [= <- <-]; split; reflexivity).
  destruct l as [|[] l]; try (apply B, H). clear B.
  destruct (match l with Star :: _ => _ | _ => _ end) as [[s r1]|]; cbn [obind] in H; [|discriminate].
  destruct (expect is_comma r1) as [r2|]; cbn [obind] in H; [|discriminate].
  destruct (match r2 with Word _ :: _ => _ | _ => _ end) as [[d r3]|]; cbn [obind] in H; [|discriminate].
  destruct (match r3 with Comma :: _ => _ | _ => _ end) as [[e r4]|]; cbn [obind] in H; [|discriminate].
  destruct (expect is_greater r4) as [r5|]; cbn [obind] in H; [|discriminate].
  destruct (verifyTensorType venc s d e) eqn:V; cbn in H; [|discriminate]. injection H as <- <-. split; [exact V|reflexivity].
Qed.
Lemma parse_multi_verified (Q : ty -> Prop) p n : (forall l t r, p l = Some (t, r) -> Q t) ->
  forall l ts r, parse_multi p n l = Some (ts, r) -> Forall Q ts.
Proof.
  intros H. induction n as [|n IH]; intros l ts r E; [discriminate|]. cbn [parse_multi] in E.
  destruct (p l) as [[t l']|] eqn:P; cbn [obind] in E; [|discriminate]. apply H in P.
  assert (B : (do r <- expect is_greater l'; Some ([t], r)) = Some (ts, r) -> Forall Q ts).
  { destruct (expect is_greater l'); cbn [obind]; intros [= <- <-]. auto. }
  destruct l' as [|[] l']; try (apply B, E). destruct (parse_multi p n l') as [[us r']|] eqn:M; cbn [obind] in E; [|discriminate].
  injection E as <- <-. constructor; [exact P|eapply IH; exact M].
Qed.
Theorem C54_parsed_types_verified venc fuel : forall l t r, parse venc fuel l = Some (t, r) -> all_tensors (verified venc) t.
Proof.
  induction fuel as [|fuel IH]; intros l t r H; [discriminate|]. cbn [parse] in H.
  destruct l as [|[w| | | | | | | | | | |] l]; try discriminate H.
  pose (contained := fun r => do r <- expect is_less r; do (t, r) <- parse venc fuel r; do r <- expect is_greater r; Some (t, r)).
  pose (multiple := fun r => do r <- expect is_less r; match r with Greater :: r => Some ([], r) | _ => parse_multi (parse venc fuel) fuel r end).
  assert (C : forall l t r, contained l = Some (t, r) -> all_tensors (verified venc) t).
  { clear - IH. intros l t r H. unfold contained in H. destruct (expect is_less l) as [l1|]; cbn [obind] in H; [|discriminate].
    destruct (parse venc fuel l1) as [[u l2]|] eqn:P; cbn [obind] in H; [|discriminate]. destruct (expect is_greater l2); cbn [obind] in H; [|discriminate].
    injection H as <- <-. eapply IH; exact P. }
  assert (M : forall l ts r, multiple l = Some (ts, r) -> Forall (all_tensors (verified venc)) ts).
  { clear - IH. intros l ts r H. unfold multiple in H. destruct (expect is_less l) as [l1|]; cbn [obind] in H; [|discriminate].
    assert (B : parse_multi (parse venc fuel) fuel l1 = Some (ts, r) -> Forall (all_tensors (verified venc)) ts) by (apply parse_multi_verified, IH).
    destruct l1 as [|[] l1]; try (apply B, H). injection H as <- <-. constructor. }
  destruct (String.eqb w "nn.Module").
  { destruct (expect is_less l) as [l1|]; cbn [obind] in H; [|discriminate]. destruct l1 as [|[] l1]; try discriminate.
    destruct (expect is_greater l1); cbn [obind] in H; [|discriminate]. injection H as <- <-. exact I. }
  destruct (String.eqb w "optional"); [match type of H with obind ?e _ = _ => destruct e as [[u l2]|] eqn:P end; cbn [obind] in H; [|discriminate]; injection H as <- <-; exact (C _ _ _ P)|].
  destruct (String.eqb w "list"); [match type of H with obind ?e _ = _ => destruct e as [[u l2]|] eqn:P end; cbn [obind] in H; [|discriminate]; injection H as <- <-; exact (C _ _ _ P)|].
  destruct (String.eqb w "dict").
  { destruct (expect is_less l) as [l1|]; cbn [obind] in H; [|discriminate]. destruct (parse venc fuel l1) as [[k l2]|] eqn:K; cbn [obind] in H; [|discriminate].
    destruct (expect is_comma l2) as [l3|]; cbn [obind] in H; [|discriminate]. destruct (parse venc fuel l3) as [[v l4]|] eqn:V; cbn [obind] in H; [|discriminate].
    destruct (expect is_greater l4); cbn [obind] in H; [|discriminate]. injection H as <- <-. split; [eapply IH; exact K|eapply IH; exact V]. }
  destruct (String.eqb w "tuple"); [match type of H with obind ?e _ = _ => destruct e as [[u l2]|] eqn:P end; cbn [obind] in H; [|discriminate]; injection H as <- <-; apply all_tensors_list; exact (M _ _ _ P)|].
  destruct (String.eqb w "union"); [match type of H with obind ?e _ = _ => destruct e as [[u l2]|] eqn:P end; cbn [obind] in H; [|discriminate]; injection H as <- <-; apply all_tensors_list; exact (M _ _ _ P)|].
  destruct (String.eqb w "vtensor"); [match type of H with obind ?e _ = _ => destruct e as [[u l2]|] eqn:P end; cbn [obind] in H; [|discriminate]; injection H as <- <-; exact (proj1 (parse_tensor_verified _ _ _ _ _ P))|].
  destruct (String.eqb w "tensor"); [match type of H with obind ?e _ = _ => destruct e as [[u l2]|] eqn:P end; cbn [obind] in H; [|discriminate]; injection H as <- <-; exact (proj1 (parse_tensor_verified _ _ _ _ _ P))|].
  destruct (parse_atom w); cbn [obind] in H; [|discriminate]. injection H as <- <-. exact I.
Qed.
(** C54: only well-formed spellings are accepted: what the parser consumes is a spelling of what it returns. *)
Lemma expect_inv test k l r : (forall t, test t = true -> t = k) -> expect test l = Some r -> l = k :: r.
Proof. intros H. destruct l as [|t l]; cbn; [discriminate|]. destruct (test t) eqn:E; [|discriminate]. intros [= <-]. rewrite (H t E). reflexivity. Qed.
Lemma less_inv l r : expect is_less l = Some r -> l = Less :: r. Proof. apply expect_inv. intros []; cbn; congruence. Qed.
Lemma greater_inv l r : expect is_greater l = Some r -> l = Greater :: r. Proof. apply expect_inv. intros []; cbn; congruence. Qed.
Lemma lsquare_inv l r : expect is_lsquare l = Some r -> l = LSquare :: r. Proof. apply expect_inv. intros []; cbn; congruence. Qed.
Lemma rsquare_inv l r : expect is_rsquare l = Some r -> l = RSquare :: r. Proof. apply expect_inv. intros []; cbn; congruence. Qed.
Lemma comma_inv l r : expect is_comma l = Some r -> l = Comma :: r. Proof. apply expect_inv. intros []; cbn; congruence. Qed.
Lemma parse_more_inv n : forall l s r, (length l <= n)%nat -> parse_sizes false l = (s, r) -> exists p, l = p ++ r /\ spells_more s p.
Proof.
  induction n as [|n IH]; intros l s r L H.
  - destruct l; [|cbn in L; lia]. injection H as <- <-. exists []. split; [reflexivity|constructor].
  - assert (B : forall x, ([] : list Z, x) = (s, r) -> exists p, x = p ++ r /\ spells_more s p)
      by (intros x [= <- <-]; exists []; split; [reflexivity|constructor]).
    destruct l as [|[] l]; try (apply B, H). cbn [parse_sizes] in H.
    assert (C : ([] : list Z, l) = (s, r) -> exists p, Comma :: l = p ++ r /\ spells_more s p)
      by (intros [= <- <-]; exists [Comma]; split; [reflexivity|constructor]).
    destruct l as [|[] l]; try (apply C, H); clear C;
      destruct (parse_sizes false l) as [s' r'] eqn:E; injection H as <- <-; cbn in L;
      (destruct (IH l s' r' ltac:(lia) E) as (p & -> & Q));
      [exists (Comma :: Question :: p)|exists (Comma :: Int_ z :: p)]; (split; [reflexivity|constructor; [constructor|exact Q]]).
Qed.
Lemma parse_sizes_inv l s r : parse_sizes true l = (s, r) -> exists p, l = p ++ r /\ spells_sizes s p.
Proof.
  intros H. assert (B : forall x, ([] : list Z, x) = (s, r) -> exists p, x = p ++ r /\ spells_sizes s p)
    by (intros x [= <- <-]; exists []; split; [reflexivity|constructor]).
  destruct l as [|[] l]; try (apply B, H); cbn [parse_sizes] in H; destruct (parse_sizes false l) as [s' r'] eqn:E; injection H as <- <-;
    destruct (parse_more_inv _ l s' r' (le_n _) E) as (p & -> & Q);
    [exists (Question :: p)|exists (Int_ z :: p)]; (split; [reflexivity|constructor; [constructor|exact Q]]).
Qed.
Lemma parse_tensor_inv venc vs l t r : parseTensorType venc vs l = Some (t, r) -> exists p, l = p ++ r /\ spells_tensor t p.
Proof.
  unfold parseTensorType. intros H.
  assert (B : Some ({| value_semantics := vs; sizes := None; elt := None; sparsity := None |}, l) = Some (t, r) -> exists p, l = p ++ r /\ spells_tensor t p)
    by (intros [= <- <-]; exists []; split; [reflexivity|constructor]).
  destruct l as [|[] l]; try (apply B, H). clear B.
  destruct (match l with Star :: _ => _ | _ => _ end) as [[s r1]|] eqn:E1 in H; cbn [obind] in H; [|discriminate].
  assert (S : exists p, l = p ++ r1 /\ spells_shape s p).
  { clear H. assert (B : (do r <- expect is_lsquare l; let '(s, r) := parse_sizes true r in do r <- expect is_rsquare r; Some (Some s, r)) = Some (s, r1) ->
      exists p, l = p ++ r1 /\ spells_shape s p).
    { destruct (expect is_lsquare l) as [l1|] eqn:X; cbn [obind]; [|discriminate]. apply lsquare_inv in X as ->.
      destruct (parse_sizes true l1) as [z r'] eqn:Y. destruct (expect is_rsquare r') as [r2|] eqn:X; cbn [obind]; [|discriminate]. apply rsquare_inv in X as ->.
      intros [= <- <-]. apply parse_sizes_inv in Y as (p & -> & Q). exists ([LSquare] ++ p ++ [RSquare]). split; [|constructor; exact Q].
      cbn [app]. rewrite <- app_assoc. reflexivity. }
    destruct l as [|[] l]; try (apply B, E1). injection E1 as <- <-. exists [Star]. split; [reflexivity|constructor]. }
  clear E1. destruct S as (p & -> & S).
  destruct (expect is_comma r1) as [r2|] eqn:X; cbn [obind] in H; [|discriminate]. apply comma_inv in X as ->.
  destruct (match r2 with Word _ :: _ => _ | _ => _ end) as [[d r3]|] eqn:E2 in H; cbn [obind] in H; [|discriminate].
  assert (D : r2 = match d with Some x => Type_ x | None => Word "unk" end :: r3).
  { clear H. destruct r2 as [|[] r2]; try discriminate E2; [|injection E2 as <- <-; reflexivity].
    repeat (let a := fresh in let w' := fresh in destruct w as [|a w'] || idtac; try discriminate E2).
    all: repeat match type of E2 with context [match ?x with _ => _ end] => is_var x; destruct x; try discriminate E2 end.
    all: injection E2 as <- <-; reflexivity. }
  clear E2. subst r2.
  destruct (match r3 with Comma :: _ => _ | _ => _ end) as [[e r4]|] eqn:E3 in H; cbn [obind] in H; [|discriminate].
  assert (E : r3 = match e with Some x => [Comma; Attr x] | None => [] end ++ r4).
  { clear H. destruct r3 as [|[] r3]; try (injection E3 as <- <-; reflexivity). destruct r3 as [|[] r3]; try discriminate E3. injection E3 as <- <-. reflexivity. }
  clear E3. subst r3.
  destruct (expect is_greater r4) as [r5|] eqn:X; cbn [obind] in H; [|discriminate]. apply greater_inv in X as ->.
  destruct (verifyTensorType venc s d e); cbn in H; [|discriminate]. injection H as <- <-.
  eexists. split; [|apply st_full; exact S]. rewrite <- ?app_assoc. cbn [app]. rewrite <- ?app_assoc. cbn [app]. rewrite <- ?app_assoc. reflexivity.
Qed.
Lemma parse_multi_inv p n : (forall l t r, p l = Some (t, r) -> exists q, l = q ++ r /\ spells t q) ->
  forall l ts r, parse_multi p n l = Some (ts, r) -> ts <> [] /\ exists q, l = q ++ Greater :: r /\ spells_list ts q.
Proof.
  intros H. induction n as [|n IH]; intros l ts r E; [discriminate|]. cbn [parse_multi] in E.
  destruct (p l) as [[t l']|] eqn:P; cbn [obind] in E; [|discriminate]. apply H in P as (q & -> & Q).
  assert (B : (do r <- expect is_greater l'; Some ([t], r)) = Some (ts, r) -> ts <> [] /\ exists q0, q ++ l' = q0 ++ Greater :: r /\ spells_list ts q0).
  { destruct (expect is_greater l') eqn:X; cbn [obind]; [|discriminate]. apply greater_inv in X as ->. intros [= <- <-].
    split; [discriminate|]. exists q. split; [reflexivity|constructor; exact Q]. }
  destruct l' as [|[] l']; try (apply B, E). destruct (parse_multi p n l') as [[us r']|] eqn:M; cbn [obind] in E; [|discriminate].
  injection E as <- <-. apply IH in M as (N & m & -> & S). split; [discriminate|]. exists (q ++ [Comma] ++ m). split.
  - rewrite <- !app_assoc. reflexivity.
  - constructor; assumption.
Qed.
Theorem C54_parser_accepts_only_spellings venc fuel : forall l t r, parse venc fuel l = Some (t, r) -> exists p, l = p ++ r /\ spells t p.
Proof.
  induction fuel as [|fuel IH]; intros l t r H; [discriminate|]. cbn [parse] in H.
  destruct l as [|[w| | | | | | | | | | |] l]; try discriminate H.
  pose (contained := fun r => do r <- expect is_less r; do (t, r) <- parse venc fuel r; do r <- expect is_greater r; Some (t, r)).
  pose (multiple := fun r => do r <- expect is_less r; match r with Greater :: r => Some ([], r) | _ => parse_multi (parse venc fuel) fuel r end).
  assert (C : forall l t r, contained l = Some (t, r) -> exists p, l = [Less] ++ p ++ [Greater] ++ r /\ spells t p).
  { clear - IH. intros l t r H. unfold contained in H. destruct (expect is_less l) as [l1|] eqn:X; cbn [obind] in H; [|discriminate]. apply less_inv in X as ->.
    destruct (parse venc fuel l1) as [[u l2]|] eqn:P; cbn [obind] in H; [|discriminate]. destruct (expect is_greater l2) eqn:X; cbn [obind] in H; [|discriminate].
    apply greater_inv in X as ->. injection H as <- <-. apply IH in P as (p & -> & Q). exists p. auto. }
  assert (M : forall l ts r, multiple l = Some (ts, r) -> exists p, l = [Less] ++ p ++ [Greater] ++ r /\ spells_list ts p).
  { clear - IH. intros l ts r H. unfold multiple in H. destruct (expect is_less l) as [l1|] eqn:X; cbn [obind] in H; [|discriminate]. apply less_inv in X as ->.
    assert (B : parse_multi (parse venc fuel) fuel l1 = Some (ts, r) -> exists p, Less :: l1 = [Less] ++ p ++ [Greater] ++ r /\ spells_list ts p).
    { intros E. apply parse_multi_inv in E as (_ & q & -> & Q); [|exact IH]. exists q. auto. }
    destruct l1 as [|[] l1]; try (apply B, H). injection H as <- <-. exists []. split; [reflexivity|constructor]. }
  assert (A : forall (c : list token) p, c = [Less] ++ p ++ [Greater] ++ r -> Word w :: c = ([Word w; Less] ++ p ++ [Greater]) ++ r).
  { intros c p ->. cbn [app]. rewrite <- app_assoc. reflexivity. }
  destruct (String.eqb_spec w "nn.Module") as [->|_].
  { destruct (expect is_less l) as [l1|] eqn:X; cbn [obind] in H; [|discriminate]. apply less_inv in X as ->. destruct l1 as [|[] l1]; try discriminate.
    destruct (expect is_greater l1) eqn:X; cbn [obind] in H; [|discriminate]. apply greater_inv in X as ->. injection H as <- <-.
    eexists. split; [|constructor]. reflexivity. }
  destruct (String.eqb_spec w "optional") as [->|_].
  { match type of H with obind ?e _ = _ => destruct e as [[u l2]|] eqn:P end; cbn [obind] in H; [|discriminate]; injection H as <- <-.
    destruct (C _ _ _ P) as (p & E & Q). eexists. split; [exact (A _ p E)|constructor; exact Q]. }
  destruct (String.eqb_spec w "list") as [->|_].
  { match type of H with obind ?e _ = _ => destruct e as [[u l2]|] eqn:P end; cbn [obind] in H; [|discriminate]; injection H as <- <-.
    destruct (C _ _ _ P) as (p & E & Q). eexists. split; [exact (A _ p E)|constructor; exact Q]. }
  destruct (String.eqb_spec w "dict") as [->|_].
  { destruct (expect is_less l) as [l1|] eqn:X; cbn [obind] in H; [|discriminate]. apply less_inv in X as ->.
    destruct (parse venc fuel l1) as [[k l2]|] eqn:K; cbn [obind] in H; [|discriminate]. apply IH in K as (p & -> & K).
    destruct (expect is_comma l2) as [l3|] eqn:X; cbn [obind] in H; [|discriminate]. apply comma_inv in X as ->.
    destruct (parse venc fuel l3) as [[v l4]|] eqn:V; cbn [obind] in H; [|discriminate]. apply IH in V as (q & -> & V).
    destruct (expect is_greater l4) eqn:X; cbn [obind] in H; [|discriminate]. apply greater_inv in X as ->. injection H as <- <-.
    eexists. split; [|constructor; [exact K|exact V]]. cbn [app]. rewrite <- !app_assoc. cbn [app]. rewrite <- !app_assoc. reflexivity. }
  destruct (String.eqb_spec w "tuple") as [->|_].
  { match type of H with obind ?e _ = _ => destruct e as [[u l2]|] eqn:P end; cbn [obind] in H; [|discriminate]; injection H as <- <-.
    destruct (M _ _ _ P) as (p & E & Q). eexists. split; [exact (A _ p E)|constructor; exact Q]. }
  destruct (String.eqb_spec w "union") as [->|_].
  { match type of H with obind ?e _ = _ => destruct e as [[u l2]|] eqn:P end; cbn [obind] in H; [|discriminate]; injection H as <- <-.
    destruct (M _ _ _ P) as (p & E & Q). eexists. split; [exact (A _ p E)|constructor; exact Q]. }
  destruct (String.eqb_spec w "vtensor") as [->|_].
  { match type of H with obind ?e _ = _ => destruct e as [[u l2]|] eqn:P end; cbn [obind] in H; [|discriminate]; injection H as <- <-.
    pose proof (parse_tensor_verified _ _ _ _ _ P) as [_ V]. apply parse_tensor_inv in P as (p & -> & Q). exists (Word "vtensor" :: p). split; [reflexivity|constructor; assumption]. }
  destruct (String.eqb_spec w "tensor") as [->|_].
  { match type of H with obind ?e _ = _ => destruct e as [[u l2]|] eqn:P end; cbn [obind] in H; [|discriminate]; injection H as <- <-.
    pose proof (parse_tensor_verified _ _ _ _ _ P) as [_ V]. apply parse_tensor_inv in P as (p & -> & Q). exists (Word "tensor" :: p). split; [reflexivity|constructor; assumption]. }
  destruct (parse_atom w) as [a|] eqn:P; cbn [obind] in H; [|discriminate]. injection H as <- <-. exists [Word w]. split; [reflexivity|].
  unfold parse_atom in P. apply find_some in P as [_ P]. apply String.eqb_eq in P as ->. destruct a; constructor.
Qed.
(** C54: and what is printed is a spelling. *)
Theorem C54_printer_spells venc t : all_tensors (printable venc) t -> spells t (print t).
Proof.
  intros P. destruct (C54_print_parse_round_trip venc t [] P I) as [n H]. specialize (H n (le_n _)).
  apply C54_parser_accepts_only_spellings in H as (p & E & S). rewrite !app_nil_r in E. subst p. exact S.
Qed.
(** C54: a type with storage but neither sizes nor element type passes verification and is parsed, but its storage is not printed. *)
Theorem C54_bare_storage_lost_refuted venc vs k :
  let t := {| value_semantics := vs; sizes := None; elt := None; sparsity := Some (SparseE k) |} in
  verified venc t /\
  parseTensorType venc vs [Less; Star; Comma; Word "unk"; Comma; Attr (SparseE k); Greater] = Some (t, []) /\
  print (Tens t) = print (Tens (forget_storage t)) /\ forget_storage t <> t.
Proof. cbn zeta. repeat split; try reflexivity. discriminate. Qed.
(** C54: printed and parsed forms are not in bijection: a trailing comma after the sizes, or -1 for an unknown size, is accepted. *)
Theorem C54_other_spellings venc vs :
  let t := {| value_semantics := vs; sizes := Some [2; -1]; elt := None; sparsity := None |} in
  parseTensorType venc vs [Less; LSquare; Int_ 2; Comma; Question; Comma; RSquare; Comma; Word "unk"; Greater] = Some (t, []) /\
  parseTensorType venc vs [Less; LSquare; Int_ 2; Comma; Int_ (-1); RSquare; Comma; Word "unk"; Greater] = Some (t, []).
Proof. split; reflexivity. Qed.
(** C54: keys and values a dictionary type may have. *)
Theorem C54_dictionary_types k v : dict_verify k v = true <->
  (In k [Atom AnyA; Atom IntA; Atom BoolA; Atom FloatA; Atom StringA] \/ exists t, k = Tens t) /\
  ~ In v [Atom QInt8A; Atom QInt16A; Atom QUInt8A; Atom QInt32A].
Proof.
  unfold dict_verify. rewrite Bool.andb_true_iff.
  assert (K : isAnyTorchDictKeyType k = true <-> (In k [Atom AnyA; Atom IntA; Atom BoolA; Atom FloatA; Atom StringA] \/ exists t, k = Tens t)).
  { destruct k as [[]| | | | | | |]; cbn; split; intros H; try reflexivity; try discriminate; try tauto; try (right; eauto; fail);
      destruct H as [H|[t H]]; try discriminate H; repeat (destruct H as [H|H]; try discriminate H); destruct H. }
  rewrite K. assert (V : isAnyTorchType v = true <-> ~ In v [Atom QInt8A; Atom QInt16A; Atom QUInt8A; Atom QInt32A]).
  { unfold isAnyTorchType. destruct v as [[]| | | | | | |]; try (rewrite Bool.orb_true_r); cbn; split; intros H; try reflexivity; try discriminate H; try tauto;
      try (intros C; repeat (destruct C as [C|C]; try discriminate C); destruct C; fail). }
  rewrite V. tauto.
Qed.
(** C54: the element types that survive conversion to a builtin tensor. *)
Theorem C54_builtin_conversion d : torch_element d -> d <> StringD ->
  exists b, convertDtypeToBuiltinElementType d = Some b /\
    (b = d \/ exists w, b = Builtin (IntT w Signless) /\
       ((w = 8 /\ (d = Builtin QInt8T \/ d = Builtin QUInt8T)) \/ (w = 16 /\ d = Builtin QInt16T) \/ (w = 32 /\ d = Builtin QInt32T))).
Proof.
  intros T N. destruct d as [m| |]; [|eexists; split; [reflexivity|auto]|congruence].
  destruct m; try (destruct T; fail); cbn; eexists; (split; [reflexivity|]); auto 10; right; eexists; (split; [reflexivity|]); tauto.
Qed.
Theorem C54_string_tensors_not_convertible : convertDtypeToBuiltinElementType StringD = None /\ torch_element StringD.
Proof. split; [reflexivity|exact I]. Qed.

Print Assumptions C54_print_parse_round_trip.
Print Assumptions C54_parsed_types_verified.
Print Assumptions C54_verification_exact.
