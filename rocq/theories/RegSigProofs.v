(** Lemmas about declarations in signatures. *)
From Coq Require Import Ascii String Bool Arith Lia List.
From Verif Require Import GenTextModel GenTextSpec GenTextProofs RegSigModel RegSigSpec.
Import ListNotations.
Open Scope string_scope.
Open Scope list_scope.
Open Scope nat_scope.

(** Induction over trees *)
Section Trees.
Context (P : ptype -> Prop) (H : forall n args, Forall P args -> P (Ty n args)).
Fixpoint ptype_tree (t : ptype) : P t :=
  match t with Ty n args => H n args ((fix all (l : list ptype) : Forall P l := match l with [] => Forall_nil P | x :: r => Forall_cons x (ptype_tree x) (all r) end) args) end.
End Trees.
Section Values.
Context (P : value -> Prop) (HA : forall s, P (Atom s)) (HS : forall l, Forall P l -> P (Seq l)).
Fixpoint value_tree (v : value) : P v :=
  match v with
  | Atom s => HA s
  | Seq l => HS l ((fix all (l : list value) : Forall P l := match l with [] => Forall_nil P | x :: r => Forall_cons x (value_tree x) (all r) end) l)
  end.
End Values.

Lemma text_eqb_eq a : forall b, text_eqb a b = true <-> a = b.
Proof.
  induction a as [|x a IH]; intros [|y b]; cbn [text_eqb]; try easy. rewrite andb_true_iff, IH, Ascii.eqb_eq. split; [intros [-> ->]; reflexivity|intros E; now injection E].
Qed.
Lemma text_eqb_neq a b : a <> b -> text_eqb a b = false.
Proof. intros N. destruct (text_eqb a b) eqn:E; [|reflexivity]. apply text_eqb_eq in E. contradiction. Qed.

(** ** Words between characters they do not have *)
Lemma starts_iff w : forall s, starts w s = true <-> exists r, s = w ++ r.
Proof.
  induction w as [|x w IH]; intros s; [split; [now exists s|reflexivity]|]. destruct s as [|y s].
  - split; [discriminate|intros [r E]; discriminate].
  - cbn [starts]. rewrite andb_true_iff, IH, Ascii.eqb_eq. split.
    + intros [-> [r ->]]. now exists r.
    + intros [r E]. injection E as -> ->. split; [reflexivity|now exists r].
Qed.
Lemma app_before (w a b r : list ascii) c : ~ In c w -> a ++ c :: b = w ++ r -> exists t, a = w ++ t /\ r = t ++ c :: b.
Proof.
  revert a. induction w as [|x w IH]; intros a N E; [exists a; split; [reflexivity|now cbn in E]|].
  destruct a as [|y a].
  - injection E as -> _. exfalso. apply N. now left.
  - injection E as -> E. destruct (IH a (fun K => N (or_intror K)) E) as (t & -> & ->). now exists t.
Qed.
Lemma starts_before w a b c : ~ In c w -> starts w (a ++ c :: b) = starts w a.
Proof.
  intros N. apply eq_true_iff_eq. rewrite !starts_iff. split.
  - intros [r E]. apply app_before in E as (t & -> & _); [|exact N]. now exists t.
  - intros [r ->]. exists (r ++ c :: b). now rewrite <- app_assoc.
Qed.
Lemma replace_from_before w v c : w <> [] -> ~ In c w -> forall a k b, k <= length a ->
  replace_from w v k (a ++ c :: b) = replace_from w v k a ++ c :: replace_from w v 0 b.
Proof.
  intros NE N. induction a as [|x a IH]; intros k b L.
  - destruct k; [|cbn in L; lia]. cbn [app replace_from]. change (c :: b) with ([] ++ c :: b) at 1. rewrite starts_before by exact N.
    destruct w; [congruence|reflexivity].
  - cbn [app replace_from]. destruct k as [|k].
    + change (x :: a ++ c :: b) with ((x :: a) ++ c :: b). rewrite starts_before by exact N. destruct (starts w (x :: a)) eqn:S.
      * rewrite IH; [now rewrite <- app_assoc|]. apply starts_iff in S as [r S]. apply (f_equal (@length _)) in S. rewrite app_length in S. cbn [length] in S. lia.
      * rewrite IH by lia. reflexivity.
    + cbn [length] in L. rewrite IH by lia. reflexivity.
Qed.
Lemma replace_before w v c a b : w <> [] -> ~ In c w -> replace w v (a ++ c :: b) = replace w v a ++ c :: replace w v b.
Proof. intros NE N. apply replace_from_before; [exact NE|exact N|lia]. Qed.
Lemma replace_self w v : w <> [] -> replace w v w = v.
Proof.
  intros NE. destruct w as [|x w]; [congruence|]. unfold replace. cbn [replace_from].
  assert (ST : starts (x :: w) (x :: w) = true) by (apply starts_iff; exists []; now rewrite app_nil_r). rewrite ST.
  cbn [length]. replace (S (length w) - 1) with (length w) by lia.
  assert (E : forall u k s, k = length s -> replace_from u v k s = []).
  { intros u k s. revert k. induction s as [|y s IH]; intros k ->; [reflexivity|]. cbn [replace_from length]. now apply IH. }
  rewrite E by reflexivity. apply app_nil_r.
Qed.
Lemma contains_before w c a b : ~ In c w -> contains w (a ++ c :: b) <-> contains w a \/ contains w b.
Proof.
  intros N. split.
  - intros (x & y & E). revert a E. induction x as [|z x IH]; intros a E.
    + symmetry in E. cbn [app] in E. symmetry in E. apply app_before in E as (t & -> & _); [|exact N]. left. now exists [], t.
    + destruct a as [|z' a].
      * injection E as _ ->. right. now exists x, y.
      * injection E as -> E. destruct (IH a E) as [(p & q & ->)|K]; [left; now exists (z :: p), q|now right].
  - intros [(x & y & ->)|(x & y & ->)].
    + exists x, (y ++ c :: b). now rewrite <- !app_assoc.
    + exists (a ++ c :: x), y. now rewrite <- !app_assoc.
Qed.
Lemma contains_nil w : w <> [] -> ~ contains w [].
Proof. intros NE (a & b & E). destruct a; [|discriminate]. destruct w; [congruence|discriminate]. Qed.
Lemma occurs_iff w s : occurs w s = true <-> contains w s.
Proof.
  induction s as [|c s IH].
  - cbn [occurs]. rewrite orb_false_r, starts_iff. split; [intros [r E]; exists [], r; exact E|intros (a & b & E)]. destruct a; [|discriminate]. now exists b.
  - cbn [occurs]. rewrite orb_true_iff, IH, starts_iff. split.
    + intros [[r ->]|(a & b & ->)]; [now exists [], r|now exists (c :: a), b].
    + intros (a & b & E). destruct a as [|d a]; [left; now exists b|]. injection E as -> ->. right. now exists a, b.
Qed.

(** ** Types *)
Lemma word_parts w : word w -> ~ In "["%char w /\ ~ In "]"%char w /\ ~ In ","%char w /\ ~ In " "%char w.
Proof. exact (fun x => x). Qed.
Lemma tidy_args w n args : tidy w (Ty n args) -> Forall (tidy w) args.
Proof.
  intros (_ & _ & H). induction args as [|x r IH]; [constructor|]. destruct H as [H1 H2]. constructor; [exact H1|now apply IH].
Qed.
Lemma mentions_args w n args : args <> [] -> (mentions w (Ty n args) <-> Exists (mentions w) args).
Proof.
  intros NE. cbn [mentions]. destruct args as [|x r]; [congruence|]. clear NE.
  revert x. induction r as [|y r IH]; intros x.
  - split; [intros [H|[]]; now left|intros H; inversion H; subst; [now left|inversion H1]].
  - split.
    + intros [H|H]; [now left|right; now apply IH].
    + intros H. inversion H; subst; [now left|right; now apply IH].
Qed.
Lemma written_args n args : args <> [] -> written (Ty n args) = n ++ chars "[" ++ commas (map written args) ++ chars "]".
Proof. intros NE. destruct args; [congruence|reflexivity]. Qed.
Lemma commas_cons x y l : commas (x :: y :: l) = x ++ ","%char :: " "%char :: commas (y :: l).
Proof. reflexivity. Qed.
Lemma replace_commas w v l : w <> [] -> word w -> replace w v (commas l) = commas (map (replace w v) l).
Proof.
  intros NE (W1 & W2 & W3 & W4). induction l as [|x [|y l] IH]; [reflexivity..|].
  rewrite commas_cons. rewrite replace_before by assumption.
  change (" "%char :: commas (y :: l)) with ([] ++ " "%char :: commas (y :: l)). rewrite replace_before, IH by assumption. reflexivity.
Qed.
Lemma contains_commas w l : w <> [] -> word w -> contains w (commas l) <-> Exists (contains w) l.
Proof.
  intros NE (W1 & W2 & W3 & W4). induction l as [|x [|y l] IH].
  - split; [intros K; now apply contains_nil in K|intros K; inversion K].
  - cbn [commas]. split; [now left|intros K; inversion K; [assumption|]]. inversion H0.
  - rewrite commas_cons, contains_before by exact W3.
    change (" "%char :: commas (y :: l)) with ([] ++ " "%char :: commas (y :: l)). rewrite contains_before, IH by exact W4. split.
    + intros [K|[K|K]]; [now left|now apply contains_nil in K|now right].
    + intros K. inversion K; subst; [now left|right; now right].
Qed.
Lemma replace_written w v t : chars w <> [] -> word (chars w) -> tidy w t -> replace (chars w) (written v) (written t) = written (subst w v t).
Proof.
  intros NE W. induction t as [n args IH] using ptype_tree. intros T. destruct args as [|x r].
  - cbn [written subst]. destruct T as (_ & [[-> _]|N] & _).
    + destruct (list_eq_dec ascii_dec (chars w) (chars w)); [|congruence]. now apply replace_self.
    + destruct (list_eq_dec ascii_dec n (chars w)) as [->|_].
      * exfalso. apply N. exists [], []. now rewrite app_nil_r.
      * now apply replace_absent.
  - rewrite written_args by discriminate. destruct W as (W1 & W2 & W3 & W4).
    change (chars "[" ++ ?y) with ("["%char :: y). rewrite replace_before by assumption.
    change (chars "]") with ["]"%char]. rewrite replace_before by assumption. rewrite replace_commas by (assumption || now repeat split).
    assert (NN : replace (chars w) (written v) n = n).
    { destruct T as (_ & [[_ E]|N] & _); [discriminate|]. now apply replace_absent. }
    rewrite NN. apply tidy_args in T. rewrite map_map.
    change (subst w v (Ty n (x :: r))) with (Ty n (map (subst w v) (x :: r))). rewrite written_args by discriminate. rewrite map_map.
    assert (E : map (fun x => replace (chars w) (written v) (written x)) (x :: r) = map (fun x => written (subst w v x)) (x :: r)).
    { apply map_ext_in. intros y K. rewrite Forall_forall in IH, T. now apply IH; auto. }
    rewrite E. reflexivity.
Qed.
Lemma contains_written w t : chars w <> [] -> word (chars w) -> tidy w t -> contains (chars w) (written t) <-> mentions w t.
Proof.
  intros NE W. induction t as [n args IH] using ptype_tree. intros T. destruct args as [|x r].
  - cbn [written mentions]. destruct T as (_ & [[-> _]|N] & _).
    + split; [reflexivity|]. intros _. exists [], []. now rewrite app_nil_r.
    + split; [intros K; contradiction|]. intros ->. exfalso. apply N. exists [], []. now rewrite app_nil_r.
  - rewrite written_args by discriminate. rewrite mentions_args by discriminate. pose proof W as W'. destruct W as (W1 & W2 & W3 & W4).
    change (chars "[" ++ ?y) with ("["%char :: y). rewrite contains_before by exact W1.
    change (chars "]") with ["]"%char]. rewrite contains_before, contains_commas by assumption.
    assert (NN : ~ contains (chars w) n) by (destruct T as (_ & [[_ E]|N] & _); [discriminate|exact N]).
    apply tidy_args in T. rewrite Exists_exists. rewrite Exists_exists. setoid_rewrite in_map_iff. rewrite Forall_forall in IH, T. split.
    + intros [K|[(s & (y & <- & I') & K)|K]]; [contradiction| |now apply contains_nil in K].
      exists y. split; [exact I'|]. now apply IH; auto.
    + intros (y & I' & K). right. left. exists (written y). split; [now exists y|]. now apply IH; auto.
Qed.
Lemma occurs_written w t : chars w <> [] -> word (chars w) -> tidy w t -> occurs (chars w) (written t) = true <-> mentions w t.
Proof. intros NE W T. rewrite occurs_iff. now apply contains_written. Qed.
Lemma word_string w : forallb (fun c => negb (Ascii.eqb c "[" || Ascii.eqb c "]" || Ascii.eqb c "," || Ascii.eqb c " ")) (chars w) = true -> word (chars w).
Proof. intros H. split; [|split; [|split]]; intros K; rewrite forallb_forall in H; specialize (H _ K); discriminate. Qed.
Lemma occurs_no w t : chars w <> [] -> word (chars w) -> tidy w t -> ~ mentions w t -> occurs (chars w) (written t) = false.
Proof. intros NE W T N. destruct (occurs (chars w) (written t)) eqn:E; [|reflexivity]. apply occurs_written in E; tauto. Qed.
Lemma subst_absent w v t : ~ mentions w t -> subst w v t = t.
Proof.
  induction t as [n args IH] using ptype_tree. intros N. destruct args as [|x r].
  - cbn [subst mentions] in *. now destruct (list_eq_dec ascii_dec n (chars w)).
  - rewrite mentions_args in N by discriminate. change (subst w v (Ty n (x :: r))) with (Ty n (map (subst w v) (x :: r))). f_equal.
    rewrite <- (map_id (x :: r)) at 2. apply map_ext_in. intros y K. rewrite Forall_forall in IH. apply IH; [exact K|]. intros M. apply N, Exists_exists. eauto.
Qed.

(** ** Values *)
Definition bracket (c : ascii) : list ascii := if Ascii.eqb c "[" then ["("%char] else if Ascii.eqb c "]" then [","%char; ")"%char] else [c].
Lemma munge_is s : replace (txt "]") (txt ",)") (replace (txt "[") (txt "(") s) = flat_map bracket s.
Proof.
  change (txt "]") with ["]"%char]. change (txt "[") with ["["%char]. rewrite !replace_char, flat_map_twice. apply flat_map_ext. intros c. unfold bracket.
  rewrite (Ascii.eqb_sym c "["), (Ascii.eqb_sym c "]"). destruct (Ascii.eqb "[" c); [reflexivity|]. cbn [flat_map]. now rewrite app_nil_r.
Qed.
Lemma filled_args l : l <> [] -> filled (Seq l) -> Forall filled l.
Proof.
  intros NE. cbn [filled]. destruct l as [|x r]; [congruence|]. clear NE. revert x. induction r as [|y r IH]; intros x [H1 H2]; constructor; auto.
Qed.
Lemma bracket_atom s : ~ In "["%char s -> ~ In "]"%char s -> flat_map bracket s = s.
Proof.
  intros N1 N2. induction s as [|c s IH]; [reflexivity|]. cbn [flat_map]. unfold bracket at 1.
  rewrite (eqb_no c "["), (eqb_no c "]"); [|intros ->; apply N2; now left|intros ->; apply N1; now left]. cbn [app]. f_equal.
  apply IH; intros K; [apply N1|apply N2]; now right.
Qed.
Lemma bracket_commas l : flat_map bracket (commas l) = commas (map (flat_map bracket) l).
Proof. induction l as [|x [|y l] IH]; [reflexivity..|]. rewrite commas_cons, flat_map_app. cbn [flat_map]. rewrite IH. reflexivity. Qed.
Lemma munge_value v : filled v -> flat_map bracket (as_list v) = as_tuple v.
Proof.
  induction v as [s|l IH] using value_tree; intros F.
  - destruct F as (_ & N1 & N2). now apply bracket_atom.
  - destruct l as [|x r]; [destruct F|]. apply filled_args in F; [|discriminate]. cbn [as_list]. rewrite !flat_map_app, bracket_commas, map_map.
    assert (E : map (fun x => flat_map bracket (as_list x)) (x :: r) = map as_tuple (x :: r)).
    { apply map_ext_in. intros y K. rewrite Forall_forall in IH, F. auto. }
    rewrite E. reflexivity.
Qed.
Lemma as_list_nonempty v : filled v -> as_list v <> [].
Proof. destruct v as [s|l]; cbn; [tauto|discriminate]. Qed.
Lemma as_list_not_empty v : filled v -> as_list v <> chars "[]".
Proof.
  destruct v as [s|l]; cbn [as_list].
  - intros (_ & N & _) ->. apply N. now left.
  - intros F E. destruct l as [|x r]; [destruct F|]. apply filled_args in F; [|discriminate]. inversion F as [|y z FX FR]; subst. apply as_list_nonempty in FX.
    change (chars "[]") with (chars "[" ++ [] ++ chars "]") in E. apply app_inv_head in E. apply app_inv_tail in E.
    destruct r as [|y r]; [contradiction|]. cbn [map] in E. rewrite commas_cons in E. apply app_eq_nil in E as [_ E]. discriminate.
Qed.

(** ** Strings *)
Definition pesc (c : ascii) : list ascii := if Ascii.eqb c backslash then txt "\\" else if Ascii.eqb c newline then txt "\n" else if Ascii.eqb c (ascii_of_nat 9) then txt "\t" else [c].
Lemma repr_plain s : ~ In apostrophe s -> repr s = [apostrophe] ++ flat_map pesc s ++ [apostrophe].
Proof.
  intros N. unfold repr. assert (E : existsb (Ascii.eqb apostrophe) s = false).
  { destruct (existsb _ s) eqn:E; [|reflexivity]. apply existsb_exists in E as (x & K & E). apply Ascii.eqb_eq in E as <-. contradiction. }
  rewrite E. cbn [andb]. f_equal. f_equal. rewrite !flat_map_concat_map. f_equal. apply map_ext_in. intros c K. unfold pesc.
  rewrite (eqb_no c apostrophe) by (intros ->; contradiction). reflexivity.
Qed.
Lemma replace_apostrophe s : ~ In apostrophe s -> replace (txt "'") [quotation] ([apostrophe] ++ flat_map pesc s ++ [apostrophe]) = quotation :: flat_map pesc s ++ [quotation].
Proof.
  intros N. change (txt "'") with [apostrophe]. rewrite replace_char, !flat_map_app. cbn [flat_map app]. change (Ascii.eqb apostrophe apostrophe) with true. cbn [app].
  f_equal. f_equal. rewrite flat_map_twice. rewrite !flat_map_concat_map. f_equal. apply map_ext_in. intros c K. unfold pesc.
  destruct (Ascii.eqb c backslash); [reflexivity|]. destruct (Ascii.eqb c newline); [reflexivity|]. destruct (Ascii.eqb c (ascii_of_nat 9)); [reflexivity|].
  cbn [flat_map]. rewrite eqb_no; [reflexivity|]. intros <-. contradiction.
Qed.
Lemma py_reads s r : ~ In quotation s -> py_chars (flat_map pesc s ++ quotation :: r) = Some (s, r).
Proof.
  induction s as [|c s IH]; intros N; [reflexivity|]. specialize (IH (fun K => N (or_intror K))).
  assert (NQ : c <> quotation) by (intros ->; apply N; now left). cbn [flat_map]. rewrite <- app_assoc. unfold pesc at 1.
  destruct (Ascii.eqb_spec c backslash) as [->|N1]; [|destruct (Ascii.eqb_spec c newline) as [->|N2]; [|destruct (Ascii.eqb_spec c (ascii_of_nat 9)) as [->|N3]]].
  - change (option_map (fun x => (backslash :: fst x, snd x)) (py_chars (flat_map pesc s ++ quotation :: r)) = Some (backslash :: s, r)). now rewrite IH.
  - change (option_map (fun x => (newline :: fst x, snd x)) (py_chars (flat_map pesc s ++ quotation :: r)) = Some (newline :: s, r)). now rewrite IH.
  - change (option_map (fun x => (ascii_of_nat 9 :: fst x, snd x)) (py_chars (flat_map pesc s ++ quotation :: r)) = Some (ascii_of_nat 9 :: s, r)). now rewrite IH.
  - cbn [app py_chars]. rewrite (eqb_no c """" NQ), (eqb_no c (ascii_of_nat 10) N2), (eqb_no c "\" N1), IH. reflexivity.
Qed.
