(** Lemmas about generated texts. *)
From Coq Require Import Ascii String Bool Arith Lia List.
From Verif Require Import GenTextModel GenTextSpec.
Import ListNotations.
Open Scope list_scope.
Open Scope nat_scope.

Lemma eqb_no a b : a <> b -> Ascii.eqb a b = false.
Proof. intros N. now apply Ascii.eqb_neq. Qed.

(** ** Replacing *)
Lemma replace_char c v s : replace [c] v s = flat_map (fun x => if Ascii.eqb c x then v else [x]) s.
Proof.
  unfold replace. induction s as [|x s IH]; [reflexivity|]. cbn [replace_from starts flat_map length Nat.sub].
  rewrite andb_true_r, IH. now destruct (Ascii.eqb c x).
Qed.
Lemma flat_map_twice {A B C} (f : A -> list B) (g : B -> list C) l :
  flat_map g (flat_map f l) = flat_map (fun x => flat_map g (f x)) l.
Proof. induction l as [|x l IH]; [reflexivity|]. cbn. now rewrite flat_map_app, IH. Qed.
Lemma starts_contains w : forall s, starts w s = true -> exists r, s = w ++ r.
Proof.
  induction w as [|x w IH]; intros s H; [now exists s|]. destruct s as [|y s]; [discriminate|]. cbn in H.
  apply andb_prop in H as [E H]. apply Ascii.eqb_eq in E as ->. destruct (IH _ H) as [r ->]. now exists r.
Qed.
Lemma replace_absent w v s : ~ contains w s -> replace w v s = s.
Proof.
  unfold replace. induction s as [|c s IH]; intros N; [reflexivity|]. cbn [replace_from].
  destruct (starts w (c :: s)) eqn:E.
  - exfalso. apply N. apply starts_contains in E as [r ->]. exists [], r. reflexivity.
  - f_equal. apply IH. intros (a & b & ->). apply N. now exists (c :: a), b.
Qed.

(** ** The literal of the library *)
Definition esc (c : ascii) : list ascii :=
  if Ascii.eqb c quotation then [backslash; quotation]
  else if Ascii.eqb c newline then [backslash; "n"%char; quotation; newline; quotation] else [c].
Lemma library_literal_is asm : library_literal asm = quotation :: flat_map esc asm ++ [quotation].
Proof.
  unfold library_literal. rewrite !replace_char, flat_map_twice. cbn [app]. f_equal. f_equal. apply flat_map_ext. intros c.
  unfold esc. rewrite (Ascii.eqb_sym c quotation). destruct (Ascii.eqb_spec quotation c) as [<-|N]; [reflexivity|].
  cbn [flat_map]. rewrite app_nil_r, (Ascii.eqb_sym newline c). reflexivity.
Qed.
Lemma cxx_inside asm : ~ In backslash asm -> cxx Inside (flat_map esc asm ++ [quotation]) = Some asm.
Proof.
  induction asm as [|c asm IH]; intros N; [reflexivity|]. cbn [flat_map]. rewrite <- app_assoc.
  assert (NB : c <> backslash) by (intros ->; apply N; now left).
  specialize (IH (fun K => N (or_intror K))). unfold esc at 1.
  destruct (Ascii.eqb_spec c quotation) as [->|N1].
  - change (cxx Inside ([backslash; quotation] ++ flat_map esc asm ++ [quotation])) with
      (option_map (cons quotation) (cxx Inside (flat_map esc asm ++ [quotation]))). now rewrite IH.
  - destruct (Ascii.eqb_spec c newline) as [->|N2].
    + change (option_map (cons newline) (cxx Inside (flat_map esc asm ++ [quotation])) = Some (newline :: asm)). now rewrite IH.
    + cbn [app cxx].
      change """"%char with quotation. change (ascii_of_nat 10) with newline. change "\"%char with backslash.
      rewrite (eqb_no _ _ N1), (eqb_no _ _ N2), (eqb_no _ _ NB), IH. reflexivity.
Qed.

(** The other direction: a text with a backslash is never read back. *)
Fixpoint newlines (s : list ascii) : nat := match s with [] => 0 | c :: r => (if Ascii.eqb c newline then 1 else 0) + newlines r end.
Lemma cxx_outside a : cxx Outside (flat_map esc a ++ [quotation]) = None.
Proof.
  induction a as [|c a IH]; [reflexivity|]. cbn [flat_map]. rewrite <- app_assoc. unfold esc at 1.
  destruct (Ascii.eqb_spec c quotation) as [->|N1]; [reflexivity|].
  destruct (Ascii.eqb_spec c newline) as [->|N2]; [reflexivity|]. cbn [app cxx].
  change """"%char with quotation. rewrite (eqb_no _ _ N1), IH. now destruct (_ || _).
Qed.
Definition below (strict : bool) (d a : list ascii) (k : nat) : Prop :=
  length d < length a + k \/ length d = length a + k /\ (if strict then newlines d < newlines a else newlines d <= newlines a).
Lemma mem_dec (x : ascii) l : In x l \/ ~ In x l.
Proof. destruct (in_dec ascii_dec x l); auto. Qed.
Lemma cxx_below a : forall p d, cxx p (flat_map esc a ++ [quotation]) = Some d ->
  match p with
  | Outside => False
  | Inside => below false d a 0 /\ (In backslash a -> below true d a 0)
  | Escape => below true d a 1
  | Octal _ _ | Hexadecimal _ => length d <= length a + 1
  end.
Proof.
  induction a as [|c a IH]; intros p d H.
  - cbn [flat_map app] in H. destruct p as [| | |[|k] v|[v|]]; cbn in H; try discriminate.
    + injection H as <-. split; [right; cbn; split; lia|intros []].
    + injection H as <-. cbn. lia.
    + injection H as <-. cbn. lia.
    + injection H as <-. cbn. lia.
  - cbn [flat_map] in H. rewrite <- app_assoc in H.
    assert (INS : forall d, cxx Inside (esc c ++ flat_map esc a ++ [quotation]) = Some d ->
              below false d (c :: a) 0 /\ (In backslash (c :: a) -> below true d (c :: a) 0)).
    { clear H d p. intros d H. unfold esc at 1 in H. destruct (Ascii.eqb_spec c quotation) as [->|N1].
      - change (option_map (cons quotation) (cxx Inside (flat_map esc a ++ [quotation])) = Some d) in H.
        destruct (cxx Inside _) as [d'|] eqn:E; [|discriminate]. injection H as <-. destruct (IH Inside d' E) as [W T].
        unfold below in *. cbn [length newlines]. replace (Ascii.eqb quotation newline) with false by reflexivity.
        split; [lia|]. intros [K|K]; [discriminate|]. specialize (T K). lia.
      - destruct (Ascii.eqb_spec c newline) as [->|N2].
        + change (option_map (cons newline) (cxx Inside (flat_map esc a ++ [quotation])) = Some d) in H.
          destruct (cxx Inside _) as [d'|] eqn:E; [|discriminate]. injection H as <-. destruct (IH Inside d' E) as [W T].
          unfold below in *. cbn [length newlines]. rewrite Ascii.eqb_refl.
          split; [lia|]. intros [K|K]; [discriminate|]. specialize (T K). lia.
        + cbn [app cxx] in H. change """"%char with quotation in H. change (ascii_of_nat 10) with newline in H.
          change "\"%char with backslash in H. rewrite (eqb_no _ _ N1), (eqb_no _ _ N2) in H.
          destruct (Ascii.eqb_spec c backslash) as [->|N3].
          * specialize (IH Escape d H). cbn in IH. unfold below in *. cbn [length newlines].
            replace (Ascii.eqb backslash newline) with false by reflexivity. split; intros; lia.
          * destruct (cxx Inside _) as [d'|] eqn:E; [|discriminate]. injection H as <-. destruct (IH Inside d' E) as [W T].
            unfold below in *. cbn [length newlines]. rewrite (eqb_no _ _ N2).
            split; [lia|]. intros [K|K]; [congruence|]. specialize (T K). lia. }
    assert (LEN : forall d, cxx Inside (esc c ++ flat_map esc a ++ [quotation]) = Some d -> length d <= length (c :: a)).
    { intros d' E. destruct (INS d' E) as [[W|W] _]; lia. }
    destruct p as [| | |k v|v].
    + change (flat_map esc (c :: a)) with (esc c ++ flat_map esc a) in *. rewrite app_assoc in H.
      change (esc c ++ flat_map esc a) with (flat_map esc (c :: a)) in H. rewrite cxx_outside in H. discriminate.
    + now apply INS.
    + clear INS LEN. unfold esc at 1 in H. destruct (Ascii.eqb_spec c quotation) as [->|N1].
      * change (option_map (cons backslash) (cxx Outside (flat_map esc a ++ [quotation])) = Some d) in H.
        rewrite cxx_outside in H. discriminate.
      * destruct (Ascii.eqb_spec c newline) as [->|N2].
        -- change (option_map (cons backslash) (option_map (cons "n"%char) (cxx Inside (flat_map esc a ++ [quotation]))) = Some d) in H.
           destruct (cxx Inside _) as [d'|] eqn:E; [|discriminate]. injection H as <-. destruct (IH Inside d' E) as [W _].
           unfold below in *. cbn [length newlines]. rewrite Ascii.eqb_refl. cbn. lia.
        -- cbn [app cxx] in H. destruct (digit_below 8 c).
           { specialize (IH _ _ H). cbn in IH. unfold below. cbn [length]. lia. }
           destruct (Ascii.eqb c "x").
           { specialize (IH _ _ H). cbn in IH. unfold below. cbn [length]. lia. }
           destruct (c_escape c); [|discriminate].
           destruct (cxx Inside _) as [d'|] eqn:E; [|discriminate]. injection H as <-. destruct (IH Inside d' E) as [W _].
           unfold below in *. cbn [length]. lia.
    + assert (C : forall t, cxx (Octal k v) (esc c ++ t) = Some d ->
                  (exists k' v', cxx (Octal k' v') t = Some d) \/ exists d' x, d = x :: d' /\ cxx Inside (esc c ++ t) = Some d').
      { clear. intros t H. unfold esc in *.
        assert (K : (exists k' v', cxx (Octal k' v') t = Some d) \/
                    option_map (cons (ascii_of_nat v)) (cxx Inside (esc c ++ t)) = Some d).
        { unfold esc. destruct (Ascii.eqb_spec c quotation) as [->|N1]; [|destruct (Ascii.eqb_spec c newline) as [->|N2]].
          - right. destruct k; exact H.
          - right. destruct k; exact H.
          - destruct k as [|k]; [right; exact H|]. cbn [cxx app] in H. destruct (digit_below 8 c) as [e|]; [left; eauto|right; exact H]. }
        destruct K as [K|K]; [now left|right]. unfold esc in K. destruct (cxx Inside _) as [d'|]; [|discriminate]. injection K as <-.
        now exists d', (ascii_of_nat v). }
      destruct (C _ H) as [(k' & v' & C')|(d' & x & -> & C')].
      * specialize (IH _ _ C'). cbn in IH |- *. lia.
      * specialize (LEN _ C'). cbn in LEN |- *. lia.
    + assert (C : forall t, cxx (Hexadecimal v) (esc c ++ t) = Some d ->
                  (exists v', cxx (Hexadecimal v') t = Some d) \/ exists d' x, d = x :: d' /\ cxx Inside (esc c ++ t) = Some d').
      { clear. intros t H.
        assert (K : (exists v', cxx (Hexadecimal v') t = Some d) \/ exists x, option_map (cons x) (cxx Inside (esc c ++ t)) = Some d).
        { unfold esc in *. destruct (Ascii.eqb_spec c quotation) as [->|N1]; [|destruct (Ascii.eqb_spec c newline) as [->|N2]].
          - right. destruct v as [v|]; [|discriminate H]. eexists. exact H.
          - right. destruct v as [v|]; [|discriminate H]. eexists. exact H.
          - cbn [cxx app] in H. destruct (digit_below 16 c) as [e|]; [left; eauto|]. destruct v as [v|]; [|discriminate]. right. eexists. exact H. }
        destruct K as [K|[x K]]; [now left|right]. destruct (cxx Inside _) as [d'|]; [|discriminate]. injection K as <-.
        now exists d', x. }
      destruct (C _ H) as [(v' & C')|(d' & x & -> & C')].
      * specialize (IH _ _ C'). cbn in IH |- *. lia.
      * specialize (LEN _ C'). cbn in LEN |- *. lia.
Qed.
Lemma literal_iff asm : cxx_literals (library_literal asm) = Some asm <-> ~ In backslash asm.
Proof.
  rewrite library_literal_is. change (cxx_literals (quotation :: flat_map esc asm ++ [quotation])) with (cxx Inside (flat_map esc asm ++ [quotation])).
  split; [|apply cxx_inside]. intros H K. destruct (cxx_below asm Inside asm H) as [_ T]. destruct (T K) as [L|[_ L]]; lia.
Qed.

(** ** Quoted strings *)
Definition qesc (c : ascii) : list ascii := if Ascii.eqb quotation c then [backslash; backslash; quotation] else [c].
Lemma quote_is s : quote s = quotation :: flat_map qesc s ++ [quotation].
Proof. unfold quote. now rewrite replace_char. Qed.
Lemma quotable_read s : quotable s -> forall r, td_chars false (flat_map qesc s ++ quotation :: r) = Some (s, r).
Proof.
  induction 1 as [|c s N1 N2 N3 Q IH|s Q IH]; intros r; [reflexivity| |].
  - cbn [flat_map]. rewrite <- app_assoc. unfold qesc at 1. rewrite (eqb_no quotation c) by (intros K; now apply N1). cbn [app td_chars].
    rewrite (eqb_no _ _ N1), (eqb_no _ _ N2), (eqb_no _ _ N3), IH. reflexivity.
  - cbn [flat_map]. rewrite <- !app_assoc.
    change (option_map (fun x => (backslash :: fst x, snd x)) (option_map (fun x => (quotation :: fst x, snd x)) (td_chars false (flat_map qesc s ++ quotation :: r))) = Some (backslash :: quotation :: s, r)).
    now rewrite IH.
Qed.
(** Reading from the start or after a backslash: the result is not longer, and has the same length only if the text is quotable. *)
Lemma td_below n : forall s, length s <= n -> forall d, td_chars false (flat_map qesc s ++ [quotation]) = Some (d, []) ->
  length d <= length s /\ (length d = length s -> quotable s).
Proof.
  induction n as [|n IH]; intros s L d H.
  - destruct s; [|cbn in L; lia]. injection H as <-. split; [cbn; lia|constructor].
  - destruct s as [|c s]; [injection H as <-; split; [cbn; lia|constructor]|]. cbn [flat_map] in H. rewrite <- app_assoc in H. unfold qesc at 1 in H.
    cbn [length] in L. destruct (Ascii.eqb_spec quotation c) as [<-|N1].
    + change (option_map (fun x => (backslash :: fst x, snd x)) (Some ([], flat_map qesc s ++ [quotation])) = Some (d, [])) in H.
      cbn in H. injection H as <- H. exfalso. now destruct (flat_map qesc s).
    + cbn [app td_chars] in H. rewrite (eqb_no c) in H by (intros K; now apply N1).
      destruct (Ascii.eqb_spec c (ascii_of_nat 10)) as [|N3]; [discriminate|].
      destruct (Ascii.eqb_spec c "\") as [->|N2].
      * destruct s as [|c s]; [discriminate|]. cbn [flat_map] in H. rewrite <- app_assoc in H. unfold qesc at 1 in H.
        destruct (Ascii.eqb_spec quotation c) as [<-|N4].
        -- change (option_map (fun x => (backslash :: fst x, snd x)) (option_map (fun x => (quotation :: fst x, snd x)) (td_chars false (flat_map qesc s ++ [quotation]))) = Some (d, [])) in H.
           destruct (td_chars false _) as [[d' r]|] eqn:E; [|discriminate]. cbn in H. injection H as <- ->.
           cbn [length] in L. destruct (IH s ltac:(lia) d' E) as [W T]. cbn [length]. split; [lia|].
           intros EQ. apply quotable_mark, T. lia.
        -- cbn [app td_chars] in H. destruct (td_escape c) as [e|]; [|discriminate].
           destruct (td_chars false _) as [[d' r]|] eqn:E; [|discriminate]. cbn in H. injection H as <- ->.
           cbn [length] in L. destruct (IH s ltac:(lia) d' E) as [W T]. cbn [length]. split; [lia|]. intros EQ. lia.
      * destruct (td_chars false _) as [[d' r]|] eqn:E; [|discriminate]. cbn in H. injection H as <- ->.
        destruct (IH s ltac:(lia) d' E) as [W T]. cbn [length]. split; [lia|].
        intros EQ. apply quotable_char; [now intros ->|assumption|assumption|]. apply T. lia.
Qed.
Lemma quote_iff s : td_string (quote s) = Some (s, []) <-> quotable s.
Proof.
  rewrite quote_is. change (td_string (quotation :: flat_map qesc s ++ [quotation])) with (td_chars false (flat_map qesc s ++ [quotation])). split.
  - intros H. now apply (td_below (length s) s (le_n _) s H).
  - intros Q. now apply quotable_read.
Qed.

(** ** Lines *)
Lemma splitlines_line l s : ~ In newline l -> splitlines (l ++ newline :: s) = l :: splitlines s.
Proof.
  induction l as [|c l IH]; intros N.
  - cbn [app splitlines]. now rewrite Ascii.eqb_refl.
  - cbn [app splitlines]. rewrite eqb_no by (intros ->; apply N; now left). rewrite IH by (intros K; apply N; now right). reflexivity.
Qed.
Lemma splitlines_last l : ~ In newline l -> l <> [] -> splitlines l = [l].
Proof.
  induction l as [|c l IH]; intros N E; [congruence|]. cbn [splitlines]. rewrite eqb_no by (intros ->; apply N; now left).
  destruct l as [|d l]; [reflexivity|]. rewrite IH; [reflexivity|intros K; apply N; now right|discriminate].
Qed.
Lemma splitlines_ended ls : Forall (fun l => ~ In newline l) ls -> splitlines (ended ls) = ls.
Proof.
  induction 1 as [|l ls N F IH]; [reflexivity|]. unfold ended. cbn [flat_map]. rewrite <- app_assoc. change ([ascii_of_nat 10] ++ ?x) with (newline :: x).
  rewrite splitlines_line by exact N. f_equal. exact IH.
Qed.
Lemma splitlines_no_newline s : Forall (fun l => ~ In newline l) (splitlines s).
Proof.
  induction s as [|c s IH]; [constructor|]. cbn [splitlines]. destruct (Ascii.eqb_spec c newline) as [->|N].
  - constructor; [intros []|exact IH].
  - destruct (splitlines s) as [|h t]; [constructor; [intros [K|[]]; congruence|constructor]|].
    inversion IH; subst. constructor; [intros [K|K]; [congruence|auto]|assumption].
Qed.
Lemma ended_splitlines s : ended (splitlines s) = match rev s with [] => [] | c :: _ => if Ascii.eqb c newline then s else s ++ [newline] end.
Proof.
  induction s as [|c s IH]; [reflexivity|]. cbn [splitlines rev]. destruct (Ascii.eqb_spec c newline) as [->|N].
  - change (ended ([] :: splitlines s)) with (newline :: ended (splitlines s)). rewrite IH. destruct (rev s) as [|d r] eqn:E; cbn [app].
    + apply (f_equal (@rev _)) in E. rewrite rev_involutive in E. subst. reflexivity.
    + now destruct (Ascii.eqb d newline).
  - destruct (splitlines s) as [|h t] eqn:E.
    + change (ended []) with (@nil ascii) in IH. destruct (rev s) as [|d r] eqn:R.
      * apply (f_equal (@rev _)) in R. rewrite rev_involutive in R. subst. cbn [rev app]. rewrite (eqb_no _ _ N). reflexivity.
      * destruct s; [discriminate|]. destruct (Ascii.eqb d newline); discriminate IH.
    + change (ended ((c :: h) :: t)) with (c :: ended (h :: t)). rewrite IH. destruct (rev s) as [|d r] eqn:R; cbn [app].
      * apply (f_equal (@rev _)) in R. rewrite rev_involutive in R. subst. discriminate.
      * now destruct (Ascii.eqb d newline).
Qed.
Lemma ended_app a b : ended (a ++ b) = ended a ++ ended b.
Proof. apply flat_map_app. Qed.
Lemma indentation_is k : indentation k = repeat " "%char (2 * k).
Proof.
  unfold indentation. induction k as [|k IH]; [reflexivity|]. cbn [repeat concat]. rewrite IH.
  replace (2 * S k) with (S (S (2 * k))) by lia. reflexivity.
Qed.
Lemma print_is k s : print k s = ended (map (fun l => repeat " "%char (2 * k) ++ l) (splitlines s)).
Proof.
  unfold print. rewrite indentation_is. unfold ended. induction (splitlines s) as [|l ls IH]; [reflexivity|].
  cbn [map flat_map]. rewrite IH, <- !app_assoc. reflexivity.
Qed.
Lemma no_newline_blanks n : ~ In newline (repeat " "%char n).
Proof. intros H. apply repeat_spec in H. discriminate. Qed.
Lemma print_lines k s : splitlines (print k s) = map (fun l => repeat " "%char (2 * k) ++ l) (splitlines s).
Proof.
  rewrite print_is, splitlines_ended; [reflexivity|]. apply Forall_map. eapply Forall_impl; [|apply splitlines_no_newline].
  intros l N K. apply in_app_or in K as [K|K]; [now apply no_newline_blanks in K|auto].
Qed.

(** ** Blocks of documentation *)
Fixpoint clean (s : list ascii) : bool :=
  match s with
  | c :: r => match r with d :: _ => negb (Ascii.eqb c "}" && Ascii.eqb d "]") && clean r | [] => true end
  | [] => true
  end.
Lemma clean_cons c s : clean (c :: s) = match s with d :: _ => negb (Ascii.eqb c "}" && Ascii.eqb d "]") && clean s | [] => true end.
Proof. reflexivity. Qed.
Lemma clean_iff s : clean s = true <-> ~ contains (txt "}]") s.
Proof.
  split.
  - intros H (a & b & ->). induction a as [|c a IH]; [discriminate|]. apply IH. rewrite <- app_comm_cons, clean_cons in H.
    destruct (a ++ txt "}]" ++ b); [reflexivity|]. now apply andb_prop in H.
  - induction s as [|c s IH]; intros N; [reflexivity|]. rewrite clean_cons. destruct s as [|d s]; [reflexivity|].
    apply andb_true_intro. split.
    + apply negb_true_iff. destruct (Ascii.eqb_spec c "}") as [->|]; [|reflexivity]. destruct (Ascii.eqb_spec d "]") as [->|]; [|reflexivity].
      exfalso. apply N. now exists [], s.
    + apply IH. intros (a & b & E). apply N. exists (c :: a), b. now rewrite E.
Qed.
Lemma clean_tail c s : clean (c :: s) = true -> clean s = true.
Proof. rewrite clean_cons. destruct s; [reflexivity|]. intros H. now apply andb_prop in H. Qed.
Lemma clean_app_l a b : clean (a ++ b) = true -> clean a = true.
Proof.
  induction a as [|c a IH]; intros H; [reflexivity|]. cbn [app] in H. rewrite clean_cons in H |- *. destruct a as [|d a]; [reflexivity|].
  cbn [app] in *. apply andb_prop in H as [H1 H2]. now rewrite H1, IH.
Qed.
Lemma clean_app_r a b : clean (a ++ b) = true -> clean b = true.
Proof. induction a as [|c a IH]; intros H; [exact H|]. apply IH. now apply clean_tail in H. Qed.
(** Texts joined at a character which is neither of the two *)
Lemma clean_at a c b : clean a = true -> clean b = true -> c <> "]"%char -> (c <> "}"%char \/ hd_error b <> Some "]"%char) -> clean (a ++ c :: b) = true.
Proof.
  intros A B N1 N2. induction a as [|d a IH].
  - cbn [app]. rewrite clean_cons. destruct b as [|e b]; [reflexivity|]. rewrite B, andb_true_r. apply negb_true_iff.
    destruct N2 as [N2|N2]; [now rewrite (eqb_no _ _ N2)|]. rewrite (eqb_no e "]"), andb_false_r by (intros ->; now apply N2). reflexivity.
  - cbn [app]. rewrite clean_cons. specialize (IH (clean_tail _ _ A)). destruct a as [|e a]; cbn [app] in *.
    + rewrite IH, (eqb_no _ _ N1), andb_false_r. reflexivity.
    + rewrite IH, andb_true_r. rewrite clean_cons in A. now apply andb_prop in A.
Qed.
Lemma clean_blanks n : clean (repeat " "%char n) = true.
Proof. induction n as [|n IH]; [reflexivity|]. cbn [repeat]. apply (clean_at []); [reflexivity|exact IH|discriminate|left; discriminate]. Qed.
Lemma clean_blanks_app n s : clean s = true -> clean (repeat " "%char n ++ s) = true.
Proof. intros H. induction n as [|n IH]; [exact H|]. cbn [repeat app]. apply (clean_at []); [reflexivity|exact IH|discriminate|left; discriminate]. Qed.
Lemma td_block_clean b r : clean b = true -> td_block (b ++ "}"%char :: "]"%char :: r) = Some (b, r).
Proof.
  induction b as [|c b IH]; intros H; [reflexivity|]. specialize (IH (clean_tail _ _ H)). cbn [app]. cbn [td_block].
  destruct b as [|d b]; cbn [app] in *.
  - rewrite (eqb_no "}" "]"), andb_false_r by discriminate. cbn [td_block] in IH |- *. reflexivity.
  - rewrite clean_cons in H. apply andb_prop in H as [H _]. apply negb_true_iff in H. rewrite H. cbn [td_block] in IH |- *. rewrite IH. reflexivity.
Qed.
Lemma rstrip_prefix s : exists t, s = rstrip s ++ t.
Proof.
  induction s as [|c s [t IH]]; [now exists []|]. cbn [rstrip]. destruct (rstrip s) as [|d u] eqn:E.
  - destruct (blank c); [now exists (c :: s)|now exists s].
  - exists t. cbn [app] in *. now rewrite <- IH.
Qed.
Lemma rstrip_blank s : rstrip s = [] <-> forallb blank s = true.
Proof.
  induction s as [|c s IH]; [easy|]. cbn [rstrip forallb]. destruct (rstrip s) as [|d u].
  - destruct IH as [IH _]. rewrite IH by reflexivity. rewrite andb_true_r. now destruct (blank c).
  - destruct IH as [_ IH]. destruct (forallb blank s); [discriminate IH; reflexivity|]. rewrite andb_false_r. split; discriminate.
Qed.
Lemma rstrip_twice s : forallb blank (rstrip s) = true -> rstrip s = [].
Proof.
  induction s as [|c s IH]; [reflexivity|]. cbn [rstrip]. destruct (rstrip s) as [|d u].
  - destruct (blank c) eqn:B; [reflexivity|]. cbn. now rewrite B.
  - intros H. cbn [forallb] in H. apply andb_prop in H as [_ H]. discriminate (IH H).
Qed.
Lemma rstrip_in x s : In x (rstrip s) -> In x s.
Proof. intros H. destruct (rstrip_prefix s) as [t E]. rewrite E. apply in_or_app. now left. Qed.

Definition indented (prefix line : list ascii) : list ascii := if forallb blank line then line else prefix ++ line.
Lemma rev_head_app {A} (a b : list A) : b <> [] -> hd_error (rev (a ++ b)) = hd_error (rev b).
Proof. intros N. rewrite rev_app_distr. destruct (rev b) eqn:E; [|reflexivity]. apply (f_equal (@rev _)) in E. now rewrite rev_involutive in E. Qed.
Lemma wrap_line p l s : ~ In newline l -> wrap_indent (l ++ newline :: s) p = indented p l ++ newline :: wrap_indent s p.
Proof.
  intros N. unfold wrap_indent. rewrite splitlines_line by exact N.
  pose proof (rev_head_app (l ++ [newline]) s) as R. rewrite <- app_assoc in R. cbn [app] in R.
  destruct s as [|c s].
  - rewrite rev_app_distr. cbn [rev app map join]. rewrite Ascii.eqb_refl. reflexivity.
  - specialize (R ltac:(discriminate)).
    assert (E : splitlines (c :: s) <> []) by (cbn [splitlines]; destruct (Ascii.eqb c newline); [discriminate|]; destruct (splitlines s); discriminate).
    destruct (splitlines (c :: s)) as [|h t]; [congruence|].
    destruct (rev (l ++ newline :: c :: s)) as [|e u]; destruct (rev (c :: s)) as [|e' u'] eqn:D; cbn in R; try discriminate.
    + exfalso. cbn in D. now destruct (rev s).
    + injection R as ->. cbn [map]. cbn [join]. change (indented p l) with (if forallb blank l then l else p ++ l). rewrite <- !app_assoc. reflexivity.
Qed.
Lemma wrap_last p l : ~ In newline l -> wrap_indent l p = indented p l.
Proof.
  intros N. destruct l as [|c l]; [reflexivity|]. unfold wrap_indent. rewrite splitlines_last; [|exact N|discriminate]. cbn [map join].
  destruct (rev (c :: l)) as [|d u] eqn:E; [apply app_nil_r|]. rewrite eqb_no; [apply app_nil_r|].
  intros ->. apply N, in_rev. rewrite E. now left.
Qed.
Lemma wrap_join p ls : Forall (fun l => ~ In newline l) ls -> wrap_indent (join [newline] ls) p = join [newline] (map (indented p) ls).
Proof.
  induction 1 as [|l ls N F IH]; [reflexivity|]. destruct ls as [|h t]; [now apply wrap_last|].
  change (join [newline] (l :: h :: t)) with (l ++ newline :: join [newline] (h :: t)). rewrite wrap_line, IH by exact N. reflexivity.
Qed.
Lemma clean_join ls : Forall (fun l => clean l = true) ls -> clean (join [newline] ls) = true.
Proof.
  induction 1 as [|l ls C F IH]; [reflexivity|]. destruct ls as [|h t]; [exact C|].
  change (join [newline] (l :: h :: t)) with (l ++ newline :: join [newline] (h :: t)).
  apply clean_at; [exact C|exact IH|discriminate|left; discriminate].
Qed.
Lemma clean_lines s : clean s = true -> Forall (fun l => clean l = true) (splitlines s).
Proof.
  induction s as [|c s IH]; intros H; [constructor|]. specialize (IH (clean_tail _ _ H)). cbn [splitlines].
  destruct (Ascii.eqb c newline); [constructor; [reflexivity|exact IH]|].
  destruct s as [|d s]; [constructor; [reflexivity|constructor]|].
  destruct (splitlines (d :: s)) as [|h t] eqn:E; [constructor; [reflexivity|constructor]|].
  inversion IH as [|x y CH CT]; subst. constructor; [|exact CT]. rewrite clean_cons. destruct h as [|e h]; [reflexivity|]. rewrite CH, andb_true_r.
  rewrite clean_cons in H. apply andb_prop in H as [H _]. cbn [splitlines] in E. destruct (Ascii.eqb d newline); [discriminate|].
  destruct (splitlines s); injection E as <- _; exact H || idtac. 
  all: injection E; intros; subst; exact H.
Qed.
(** The lines of a block of documentation *)
Definition doc_line (k : nat) (line : list ascii) : list ascii :=
  if forallb blank line then [] else repeat " "%char (2 * k + 2) ++ rstrip line.
Lemma qmd_is s k : quote_multiline_docstring s k =
  txt "[{" ++ (newline :: join [newline] (map (doc_line k) (splitlines (replace (txt "}]") [] s))) ++ newline :: repeat " "%char (2 * k)) ++ txt "}]".
Proof.
  unfold quote_multiline_docstring. generalize (replace (txt "}]") [] s). clear s. intros s. rewrite !indentation_is.
  rewrite wrap_join.
  - rewrite map_map, <- repeat_app. replace (2 * k + 2 * 1) with (2 * k + 2) by lia.
    rewrite (map_ext (fun x => indented (repeat " "%char (2 * k + 2)) (rstrip x)) (doc_line k)).
    + cbn [app]. rewrite <- !app_assoc. reflexivity.
    + intros l. unfold indented, doc_line. destruct (forallb blank l) eqn:B.
      * apply rstrip_blank in B. now rewrite B.
      * destruct (forallb blank (rstrip l)) eqn:C; [|reflexivity]. apply rstrip_twice, rstrip_blank in C. congruence.
  - apply Forall_map. eapply Forall_impl; [|apply splitlines_no_newline]. intros l N K. apply N. now apply rstrip_in.
Qed.
Lemma qmd_clean s k : clean (replace (txt "}]") [] s) = true -> forall rest,
  td_code (quote_multiline_docstring s k ++ rest) =
  Some (newline :: join [newline] (map (doc_line k) (splitlines (replace (txt "}]") [] s))) ++ newline :: repeat " "%char (2 * k), rest).
Proof.
  intros C rest. rewrite qmd_is. generalize dependent (replace (txt "}]") [] s). clear s. intros s C.
  rewrite <- !app_assoc. change (td_code (txt "[{" ++ ?x)) with (td_block x). change (txt "}]" ++ rest) with ("}"%char :: "]"%char :: rest).
  apply td_block_clean. apply (clean_at []); [reflexivity| |discriminate|left; discriminate].
  apply clean_at; [|apply clean_blanks|discriminate|left; discriminate]. apply clean_join, Forall_map.
  eapply Forall_impl; [|apply clean_lines; exact C]. intros l CL. unfold doc_line. destruct (forallb blank l); [reflexivity|].
  apply clean_blanks_app. destruct (rstrip_prefix l) as [t E]. rewrite E in CL. now apply clean_app_l in CL.
Qed.
Lemma replace_joined pieces : Forall (fun p => clean p = true) pieces -> replace (txt "}]") [] (join (txt "}]") pieces) = concat pieces.
Proof.
  assert (ST : forall p s, clean p = true -> replace (txt "}]") [] (p ++ "}"%char :: "]"%char :: s) = p ++ replace (txt "}]") [] s).
  { induction p as [|c p IH]; intros s C.
    - reflexivity.
    - cbn [app]. unfold replace. cbn [replace_from].
      assert (ES : starts (txt "}]") (c :: p ++ "}"%char :: "]"%char :: s) = false).
      { rewrite clean_cons in C. cbn [starts txt list_ascii_of_string]. rewrite (Ascii.eqb_sym "}" c). destruct (Ascii.eqb_spec c "}") as [->|]; [|reflexivity].
        destruct p as [|d p]; [reflexivity|]. cbn [app starts]. apply andb_prop in C as [C _]. change (negb (Ascii.eqb d "]") = true) in C.
        apply negb_true_iff in C. now rewrite (Ascii.eqb_sym "]" d), C. }
      rewrite ES. f_equal. apply (IH s). now apply clean_tail in C. }
  induction 1 as [|p ps C F IH]; [reflexivity|]. destruct ps as [|h t].
  - cbn [join concat]. rewrite app_nil_r. apply replace_absent. now apply clean_iff.
  - change (join (txt "}]") (p :: h :: t)) with (p ++ "}"%char :: "]"%char :: join (txt "}]") (h :: t)). rewrite ST by exact C.
    cbn [concat] in *. now rewrite IH.
Qed.
Lemma rstrip_blanks t : forallb blank t = true -> rstrip t = [].
Proof. apply rstrip_blank. Qed.
Lemma rstrip_app b t : forallb blank t = true -> b = [] \/ (exists a c, b = a ++ [c] /\ blank c = false) -> rstrip (b ++ t) = b.
Proof.
  intros T [->|(a & c & -> & C)]; [now apply rstrip_blanks|]. induction a as [|x a IH].
  - cbn [app rstrip]. now rewrite (rstrip_blanks _ T), C.
  - cbn [app rstrip] in *. rewrite IH. destruct (a ++ [c]) eqn:E; [now apply app_eq_nil in E as [_ E]|reflexivity].
Qed.
Lemma doc_line_app k b t : forallb blank t = true -> b = [] \/ (exists a c, b = a ++ [c] /\ blank c = false) ->
  doc_line k (b ++ t) = match b with [] => [] | _ => repeat " "%char (2 * k + 2) ++ b end.
Proof.
  intros T B. unfold doc_line. rewrite rstrip_app by assumption. rewrite forallb_app, T, andb_true_r. destruct B as [->|(a & c & -> & C)]; [reflexivity|].
  rewrite forallb_app. cbn [forallb]. rewrite C, !andb_false_r. destruct (a ++ [c]) eqn:E; [now apply app_eq_nil in E as [_ E]|reflexivity].
Qed.
