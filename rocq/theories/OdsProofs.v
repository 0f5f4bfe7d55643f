(** Lemmas about the records of operators. *)
From Coq Require Import Ascii String Bool Arith Lia DecimalString DecimalNat DecimalFacts List.
From Verif Require Import Prelude GenTextModel GenTextSpec GenTextProofs OdsModel OdsSpec.
Import ListNotations.
Open Scope string_scope.
Open Scope list_scope.
Open Scope nat_scope.

Lemma text_eqb_eq a : forall b, text_eqb a b = true <-> a = b.
Proof.
  induction a as [|x a IH]; intros [|y b]; cbn [text_eqb]; try easy. rewrite andb_true_iff, IH, Ascii.eqb_eq. split; [intros [-> ->]; reflexivity|intros H; now injection H].
Qed.
Lemma text_eqb_refl a : text_eqb a a = true.
Proof. now apply text_eqb_eq. Qed.
Lemma ttype_dec (a b : ttype) : {a = b} + {a <> b}.
Proof. decide equality. decide equality. Qed.

(** ** Types *)
Lemma show_last t : exists a c, show t = a ++ [c] /\ match t with Optional _ => c = "?"%char | ListOf _ => c = "]"%char | Base _ => c <> "?"%char /\ c <> "]"%char end.
Proof.
  destruct t as [b|t|t].
  - destruct b; cbn; match goal with |- exists a c, ?l = _ /\ _ => exists (removelast l), (last l " "%char) end; (split; [reflexivity|split; discriminate]).
  - exists (show t), "?"%char. split; reflexivity.
  - exists (show t ++ ["["%char]), "]"%char. cbn [show]. rewrite <- app_assoc. split; reflexivity.
Qed.
Lemma app_last_inj {A} (a b : list A) x y : a ++ [x] = b ++ [y] -> a = b /\ x = y.
Proof. apply app_inj_tail. Qed.
Lemma show_inj t : forall u, show t = show u -> t = u.
Proof.
  induction t as [b|t IH|t IH]; intros u E.
  - destruct u as [b'|u|u].
    + destruct b, b'; try reflexivity; discriminate.
    + exfalso. destruct (show_last (Base b)) as (x & c & S1 & C). destruct (show_last (Optional u)) as (y & d & S2 & D).
      rewrite E, S2 in S1. apply app_last_inj in S1 as [_ <-]. now apply C.
    + exfalso. destruct (show_last (Base b)) as (x & c & S1 & C). destruct (show_last (ListOf u)) as (y & d & S2 & D).
      rewrite E, S2 in S1. apply app_last_inj in S1 as [_ <-]. now apply C.
  - destruct (show_last (Optional t)) as (x & c & S1 & C). destruct (show_last u) as (y & d & S2 & D).
    pose proof E as E'. rewrite S1, S2 in E'. apply app_last_inj in E' as [_ <-]. subst c.
    destruct u as [b|u|u]; [now destruct D|f_equal; apply IH; cbn in E; now apply app_last_inj in E|discriminate].
  - destruct (show_last (ListOf t)) as (x & c & S1 & C). destruct (show_last u) as (y & d & S2 & D).
    pose proof E as E'. rewrite S1, S2 in E'. apply app_last_inj in E' as [_ <-]. subst c.
    destruct u as [b|u|u]; [now destruct D|discriminate|]. f_equal. apply IH. cbn [show] in E.
    change ["["%char; "]"%char] with (["["%char] ++ ["]"%char]) in E. rewrite !app_assoc in E. apply app_last_inj in E as [E _]. now apply app_last_inj in E.
Qed.
Fixpoint find_type (l : list (ttype * string)) (t : ttype) : option text :=
  match l with [] => None | (k, v) :: r => if ttype_dec k t then Some (txt v) else find_type r t end.
Lemma get_find table l t : map (fun kv => (txt (fst kv), snd kv)) table = map (fun kv => (show (fst kv), snd kv)) l -> get table (show t) = find_type l t.
Proof.
  revert l. induction table as [|[k v] table IH]; intros [|[k' v'] l] E; try discriminate; [reflexivity|].
  cbn [map fst snd] in E. injection E as E1 E2 E3. cbn [get find_type]. rewrite E1, (IH l E3), E2.
  destruct (ttype_dec k' t) as [->|N]; [now rewrite text_eqb_refl|].
  destruct (text_eqb (show k') (show t)) eqn:Q; [|reflexivity]. apply text_eqb_eq, show_inj in Q. congruence.
Qed.
Definition table1 : list (ttype * string) :=
  let T := Base Tensor in
  map (fun t => (t, constraint false t))
    [T; Optional T; ListOf (Optional T); ListOf T; Base Scalar; Optional (Base Scalar); Base Int; ListOf (Base Int); Optional (Base Int);
     Optional (ListOf (Base Int)); Base Bool; ListOf (Base Bool); Optional (Base Bool); Base Float; Optional (Base Float); ListOf (Base Float);
     Optional (ListOf (Base Float)); ListOf (Base Var); Base Var; Base Var1; Base Var2; Base Any; Base Device; Optional (Base Device);
     Base Generator; Optional (Base Generator); Base Str; Optional (Base Str); ListOf (Base Str); Base Dict; Base PackedParams].
Definition table2 : list (ttype * string) :=
  let T := Base Tensor in map (fun t => (t, constraint true t)) [T; Optional T; ListOf (Optional T); ListOf T].
Lemma get1 t : get torch_type_to_ods_type (show t) = find_type table1 t.
Proof. apply get_find. reflexivity. Qed.
Lemma get2 t : get torch_non_value_type_to_ods_type (show t) = find_type table2 t.
Proof. apply get_find. reflexivity. Qed.
Lemma find_type_ext (l : list ttype) f t : find_type (map (fun t => (t, f t)) l) t = if in_dec ttype_dec t l then Some (txt (f t)) else None.
Proof.
  induction l as [|k l IH]; [reflexivity|]. cbn [map find_type]. rewrite IH. clear IH.
  destruct (ttype_dec k t) as [->|N].
  - destruct (in_dec ttype_dec t (t :: l)) as [|K]; [reflexivity|exfalso; apply K; now left].
  - destruct (in_dec ttype_dec t l), (in_dec ttype_dec t (k :: l)) as [K|K]; try reflexivity.
    + exfalso. apply K. now right.
    + destruct K as [K|K]; contradiction.
Qed.
Lemma starts_app_false w s x : starts w s = false -> length w <= length s -> starts w (s ++ x) = false.
Proof.
  revert s. induction w as [|a w IH]; intros [|b s] H L; cbn in *; try discriminate; [lia|].
  destruct (Ascii.eqb a b); [|reflexivity]. cbn in *. apply IH; [exact H|lia].
Qed.
Lemma show_base t : exists b r, show t = list_ascii_of_string (base_name b) ++ r /\ hd_error r <> Some "("%char.
Proof.
  induction t as [b|t IH|t IH].
  - exists b, []. rewrite app_nil_r. split; [reflexivity|discriminate].
  - destruct IH as (b & r & E & N). exists b, (r ++ ["?"%char]). cbn [show]. rewrite E, <- app_assoc. split; [reflexivity|]. destruct r; [discriminate|exact N].
  - destruct IH as (b & r & E & N). exists b, (r ++ ["["%char; "]"%char]). cbn [show]. rewrite E, <- app_assoc. split; [reflexivity|]. destruct r; [discriminate|exact N].
Qed.
Lemma show_not_dict t : starts (txt "Dict(") (show t) = false.
Proof.
  destruct (show_base t) as (b & r & E & N). rewrite E. destruct b; try reflexivity.
  destruct r as [|c r]; [reflexivity|]. cbn. cbn in N. rewrite andb_true_r.
  change (Ascii.eqb "("%char c = false). apply Ascii.eqb_neq. intros <-. now apply N.
Qed.
Lemma supported_in t : supported t = if in_dec ttype_dec t (map fst table1) then true else false.
Proof.
  destruct (in_dec ttype_dec t (map fst table1)) as [K|K].
  - cbn in K. repeat (destruct K as [<-|K]; [reflexivity|]). destruct K.
  - destruct (supported t) eqn:S; [|reflexivity]. exfalso. apply K. clear K.
    destruct t as [b|[b|t|[b|t|t]]|[b|[b|t|t]|t]]; try discriminate; destruct b; try discriminate; cbn; tauto.
Qed.
Lemma get_ods_type_correct t nv : get_ods_type (show t) nv false = if supported t then Some (txt (constraint nv t)) else None.
Proof.
  unfold get_ods_type. cbn [andb]. rewrite show_not_dict, get1, get2.
  unfold table1, table2. rewrite !find_type_ext. rewrite supported_in.
  match goal with |- context [in_dec ttype_dec t (map fst table1)] => replace (map fst table1) with (map fst table1) by reflexivity end.
  unfold table1. rewrite map_map, map_id. destruct nv; [|destruct (in_dec _ _ _); reflexivity].
  destruct (in_dec ttype_dec t [Base Tensor; Optional (Base Tensor); ListOf (Optional (Base Tensor)); ListOf (Base Tensor)]) as [K|K].
  - destruct (in_dec _ _ _) as [|K']; [reflexivity|]. exfalso. apply K'. cbn in *. tauto.
  - destruct (in_dec _ _ _) as [K'|K']; [|reflexivity]. f_equal. f_equal. cbn in K, K'.
    repeat (destruct K' as [<-|K']; [first [reflexivity | exfalso; tauto]|]). destruct K'.
Qed.
Lemma get_ods_type_result t nv : get_ods_type (show t) nv true = get_ods_type (show (as_result t)) nv false.
Proof.
  unfold get_ods_type. cbn [andb]. destruct (text_eqb (show t) (txt "Tensor")) eqn:E.
  - apply text_eqb_eq in E. change (txt "Tensor") with (show (Base Tensor)) in E. apply show_inj in E. subst. reflexivity.
  - destruct (ttype_dec t (Base Tensor)) as [->|N]; [discriminate|]. replace (as_result t) with t; [reflexivity|].
    destruct t as [b| |]; try reflexivity. destruct b; congruence || reflexivity.
Qed.

(** ** Lists in records *)
Lemma print_line k s : ~ In newline s -> s <> [] -> print k s = ended [repeat " "%char (2 * k) ++ s].
Proof. intros N E. rewrite print_is, splitlines_last by assumption. reflexivity. Qed.
Lemma print_listing k items : Forall (fun x => ~ In newline x /\ x <> []) items -> print k (join comma_newline items) = ended (listing (2 * k) items).
Proof.
  intros F. rewrite print_is. f_equal. induction F as [|x r [N E] F IH]; [reflexivity|]. destruct r as [|y r].
  - cbn [join listing]. now rewrite splitlines_last.
  - change (join comma_newline (x :: y :: r)) with (x ++ [","%char; newline] ++ join comma_newline (y :: r)).
    change ([","%char; newline] ++ ?l) with ([","%char] ++ newline :: l). rewrite app_assoc, splitlines_line.
    + cbn [map]. rewrite IH. reflexivity.
    + intros K. apply in_app_or in K as [K|[K|[]]]; [auto|discriminate].
Qed.
Lemma plain_quote s : plain s -> quote s = [quotation] ++ s ++ [quotation].
Proof.
  intros (N & _ & _). unfold quote. rewrite replace_absent; [reflexivity|]. intros (a & b & ->). apply N. apply in_or_app. right. now left.
Qed.

(** ** Names of results *)
Lemma to_uint_nonnil n : Nat.to_uint n <> Decimal.Nil.
Proof. intros H. pose proof (DecimalNat.Unsigned.of_to n) as E. rewrite H in E. cbn in E. subst. discriminate. Qed.
Lemma str_inj a b : str a = str b -> a = b.
Proof.
  unfold str, txt. intros E. apply (f_equal string_of_list_ascii) in E. rewrite !string_of_list_ascii_of_string in E.
  apply (f_equal NilZero.uint_of_string) in E. rewrite !NilZero.usu in E by apply to_uint_nonnil.
  injection E as E. now apply DecimalNat.Unsigned.to_uint_inj.
Qed.
Lemma enumerate_nth {A} (l : list A) k i : nth_error (enumerate_from k l) i = option_map (fun x => (k + i, x)) (nth_error l i).
Proof.
  revert k i. induction l as [|x l IH]; intros k [|i]; try reflexivity.
  - cbn. now rewrite Nat.add_0_r.
  - cbn [enumerate_from nth_error]. rewrite IH. now rewrite Nat.add_succ_comm.
Qed.
Lemma enumerate_length {A} (l : list A) k : length (enumerate_from k l) = length l.
Proof. revert k. induction l as [|x l IH]; intros k; [reflexivity|]. cbn. now rewrite IH. Qed.

(** ** Printing and parsing operations *)
Section Operations.
Context {V A T : Type}.
Notation token := (token V A T).
Lemma more_interleave {X} (f : X -> token) (g : token -> option X) (l : list X) (s : list token) :
  (forall x, g (f x) = Some x) -> hd_error s <> Some Comma ->
  more g (flat_map (fun x => [Comma; f x]) l ++ s) = Some (l, s).
Proof.
  intros G N. induction l as [|x l IH].
  - cbn. destruct s as [|[]]; try reflexivity. now destruct N.
  - cbn [flat_map app more]. rewrite G. cbn [obind]. now rewrite IH.
Qed.
Lemma interleave_is {X} (f : X -> token) x l : interleave f (x :: l) = f x :: flat_map (fun x => [Comma; f x]) l.
Proof. revert x. induction l as [|y l IH]; intros x; [reflexivity|]. change (interleave f (x :: y :: l)) with (f x :: Comma :: interleave f (y :: l)). now rewrite IH. Qed.
Lemma more_sound {X} (f : X -> token) (g : token -> option X) : (forall t x, g t = Some x -> t = f x) ->
  forall n s l r, length s <= n -> more g s = Some (l, r) -> s = flat_map (fun x => [Comma; f x]) l ++ r /\ hd_error r <> Some Comma.
Proof.
  intros G. induction n as [|n IH]; intros s l r L H.
  - destruct s; [|cbn in L; lia]. injection H as <- <-. split; [reflexivity|discriminate].
  - destruct s as [|t s]; [injection H as <- <-; split; [reflexivity|discriminate]|].
    destruct t; try (injection H as <- <-; split; [reflexivity|discriminate]).
    destruct s as [|t s]; [discriminate|]. cbn [more] in H. destruct (g t) as [x|] eqn:E; [|discriminate]. cbn [obind] in H.
    destruct (more g s) as [[l' r']|] eqn:M; [|discriminate]. injection H as <- <-. cbn [fst snd]. cbn [length] in L.
    destruct (IH s l' r' ltac:(lia) M) as [-> N]. apply G in E as ->. split; [reflexivity|exact N].
Qed.
Lemma operand_list_interleave l (s : list token) : hd_error s <> Some Comma -> (forall v, hd_error s <> Some (Operand v)) ->
  operand_list (length l) (interleave Operand l ++ s) = Some (l, s).
Proof.
  intros N N'. destruct l as [|v l].
  - cbn [interleave app length]. destruct s as [|[]]; try reflexivity. now destruct (N' v).
  - rewrite interleave_is. cbn [app operand_list]. rewrite more_interleave by easy. cbn [obind fst snd length]. now rewrite Nat.eqb_refl.
Qed.
Lemma type_list_interleave t l (s : list token) : hd_error s <> Some Comma -> type_list (interleave Type_ (t :: l) ++ s) = Some (t :: l, s).
Proof. intros N. rewrite interleave_is. cbn [app type_list]. now rewrite more_interleave. Qed.
Lemma type_list_sound (s : list token) l r : type_list s = Some (l, r) -> l <> [] /\ s = interleave Type_ l ++ r /\ hd_error r <> Some Comma.
Proof.
  destruct s as [|[]]; try discriminate. cbn [type_list]. destruct (more get_type s) as [[l' r']|] eqn:M; [|discriminate]. cbn. intros H. injection H as <- <-.
  destruct (more_sound Type_ get_type ltac:(intros []; cbn; congruence) (length s) s l' r' (le_n _) M) as [-> N].
  split; [discriminate|]. split; [now rewrite interleave_is|exact N].
Qed.
Lemma operand_list_sound n (s : list token) l r : operand_list n s = Some (l, r) ->
  length l = n /\ s = interleave Operand l ++ r /\ (l <> [] -> hd_error r <> Some Comma) /\ (l = [] -> forall v, hd_error r <> Some (Operand v)).
Proof.
  intros H.
  assert (C : (exists v s', s = Operand v :: s') \/ (forall v, hd_error s <> Some (Operand v))) by (destruct s as [|[]]; [right; discriminate|left; eauto|right; discriminate..]).
  destruct C as [(v & s' & ->)|C].
  - cbn [operand_list] in H. destruct (more get_operand s') as [[l' r']|] eqn:M; [|discriminate]. cbn [obind fst snd] in H.
    destruct (Nat.eqb_spec (S (length l')) n) as [E|]; [|discriminate]. cbn in H. injection H as <- <-.
    destruct (more_sound Operand get_operand ltac:(intros []; cbn; congruence) (length s') s' l' r' (le_n _) M) as [-> N].
    split; [exact E|]. split; [now rewrite interleave_is|]. split; [auto|discriminate].
  - assert (H' : (assert n =? 0; Some (@nil V, s)) = Some (l, r)) by (destruct s as [|[]]; try exact H; now destruct (C v)).
    destruct (Nat.eqb_spec n 0) as [->|]; [|discriminate]. cbn in H'. injection H' as <- <-. split; [reflexivity|]. split; [reflexivity|]. split; [congruence|auto].
Qed.
Lemma zero_lt_len {X} (l : list X) : (0 <? length l) = match l with [] => false | _ => true end.
Proof. now destruct l. Qed.
Theorem parse_print (op : operation V A T) rest : length (operand_types op) = length (operands op) -> hd_error rest <> Some Comma ->
  parse_op (length (operands op)) (length (result_types op)) (print_op (length (operands op)) (length (result_types op)) op ++ rest) = Some (op, rest).
Proof.
  intros L N. destruct op as [vs a ts rs]. cbn [operands operand_types result_types attributes] in *. unfold print_op, parse_op.
  cbn [operands operand_types result_types attributes]. rewrite !zero_lt_len. rewrite <- !app_assoc.
  match goal with |- context [operand_list _ (_ ++ ?s)] => remember s as s1 eqn:E1 end.
  assert (O : operand_list (length vs) ((if match vs with [] => false | _ => true end then interleave Operand vs else []) ++ s1) = Some (vs, s1)).
  { replace (if match vs with [] => false | _ => true end then interleave Operand vs else []) with (@interleave V A T V Operand vs) by now destruct vs.
    apply operand_list_interleave; subst s1; destruct a; discriminate. }
  rewrite O. cbn [obind snd fst]. clear O.
  assert (AT : (match s1 with Attributes x :: r => (Some x, r) | _ => (None, s1) end) =
               (a, [Colon] ++ (if match vs with [] => false | _ => true end then interleave Type_ ts else []) ++
                   (if match vs with [] => false | _ => true end && match rs with [] => false | _ => true end then [Arrow] else []) ++
                   (if match rs with [] => false | _ => true end then interleave Type_ rs else []) ++ rest)) by (subst s1; now destruct a).
  rewrite AT. clear AT E1 s1. cbn [app obind].
  destruct vs as [|v vs].
  - destruct ts; [|discriminate]. cbn [obind andb app snd fst]. destruct rs as [|r rs]; [reflexivity|].
    rewrite type_list_interleave by exact N. reflexivity.
  - destruct ts as [|t ts]; [discriminate|]. destruct rs as [|r rs].
    + cbn [andb app]. rewrite type_list_interleave by exact N. cbn [obind fst snd]. rewrite L, Nat.eqb_refl. reflexivity.
    + cbn [andb]. rewrite type_list_interleave by discriminate. cbn [obind fst snd]. rewrite L, Nat.eqb_refl. cbn [guard obind app fst snd].
      rewrite type_list_interleave by exact N. reflexivity.
Qed.
Theorem parse_sound n m (s : list token) (op : operation V A T) rest : parse_op n m s = Some (op, rest) ->
  length (operands op) = n /\ length (operand_types op) = n /\ (m = 0 <-> result_types op = []) /\ s = print_op n m op ++ rest.
Proof.
  unfold parse_op. destruct (operand_list n s) as [[vs s1]|] eqn:O; [|discriminate]. cbn [obind snd fst].
  apply operand_list_sound in O as (LN & -> & N1 & N2).
  destruct (match s1 with Attributes x :: r => (Some x, r) | _ => (None, s1) end) as [a s2] eqn:AT.
  assert (S1 : s1 = match a with Some x => [Attributes x] | None => [] end ++ s2) by (destruct s1 as [|[]]; injection AT as <- <-; reflexivity).
  clear AT. destruct s2 as [|[] s3]; try discriminate. cbn [obind].
  destruct (if 0 <? n then _ else _) as [[ts s4]|] eqn:OT; [|discriminate]. cbn [obind snd fst].
  assert (TS : length ts = n /\ s3 = (if 0 <? n then interleave Type_ ts else []) ++ s4).
  { destruct (Nat.ltb_spec 0 n) as [|Z].
    - destruct (type_list s3) as [[ts' s4']|] eqn:TL; [|discriminate]. cbn [obind fst] in OT.
      destruct (Nat.eqb_spec (length vs) (length ts')) as [E|]; [|discriminate]. cbn in OT. injection OT as <- <-.
      apply type_list_sound in TL as (_ & -> & _). split; [lia|reflexivity].
    - injection OT as <- <-. split; [cbn; lia|reflexivity]. }
  destruct TS as [LT ->]. clear OT.
  destruct (if (0 <? n) && (0 <? m) then _ else _) as [s5|] eqn:AR; [|discriminate]. cbn [obind].
  assert (S4 : s4 = (if (0 <? n) && (0 <? m) then [Arrow] else []) ++ s5).
  { destruct ((0 <? n) && (0 <? m)); [|now injection AR as <-]. destruct s4 as [|[]]; try discriminate. now injection AR as <-. }
  subst s4. destruct (if 0 <? m then type_list s5 else _) as [[rs s6]|] eqn:RT; [|discriminate]. cbn [obind fst snd].
  intros H. injection H as <- <-. cbn [operands operand_types result_types].
  split; [exact LN|]. split; [exact LT|].
  assert (RS : (m = 0 <-> rs = []) /\ s5 = (if 0 <? m then interleave Type_ rs else []) ++ s6).
  { destruct (Nat.ltb_spec 0 m).
    - apply type_list_sound in RT as (NE & -> & _). split; [split; [lia|congruence]|reflexivity].
    - injection RT as <- <-. split; [split; [reflexivity|lia]|reflexivity]. }
  destruct RS as [RS ->]. split; [exact RS|]. subst s1. unfold print_op. cbn [operands operand_types result_types attributes].
  replace (if 0 <? n then interleave Operand vs else []) with (@interleave V A T V Operand vs) by (subst n; now destruct vs).
  rewrite <- !app_assoc. reflexivity.
Qed.
End Operations.

(** ** Records *)
Lemma mapM_some {A B} (f : A -> option B) (g : A -> B) l : Forall (fun x => f x = Some (g x)) l -> mapM f l = Some (map g l).
Proof. induction 1 as [|x l E F IH]; [reflexivity|]. cbn [mapM map]. now rewrite E, IH. Qed.
Lemma no_newline_string s : forallb (fun c => negb (Ascii.eqb c newline)) (ascii_text s) = true -> unbroken (ascii_text s).
Proof. intros H K. rewrite forallb_forall in H. specialize (H _ K). discriminate. Qed.
Lemma unbroken_app a b : unbroken a -> unbroken b -> unbroken (a ++ b).
Proof. intros A B K. apply in_app_or in K as [K|K]; auto. Qed.
Lemma decimal_unbroken n : unbroken (decimal n).
Proof.
  unfold decimal, ascii_text. destruct (Nat.to_uint n) as [|u|u|u|u|u|u|u|u|u|u] eqn:E; [intros [K|[]]; discriminate| ..].
  all: assert (H : forall v, ~ In newline (list_ascii_of_string (DecimalString.NilEmpty.string_of_uint v)))
    by (induction v; cbn; [tauto|intros [K|K]; [discriminate|auto]..]).
  all: intros [K|K]; [discriminate|now apply (H u)].
Qed.
Lemma constraint_unbroken nv t : supported t = true -> unbroken (ascii_text (constraint nv t)) /\ constraint nv t <> "".
Proof.
  intros S. destruct t as [b|[b|t|[b|t|t]]|[b|[b|t|t]|t]]; try discriminate; destruct b; try discriminate; destruct nv;
    (split; [apply no_newline_string; reflexivity|discriminate]).
Qed.
Lemma name_unbroken several i n : (forall m, n = Some m -> unbroken m) -> unbroken (name_of_result several i n).
Proof.
  intros H. unfold name_of_result. destruct n as [m|]; [now apply H|]. destruct several; [|apply no_newline_string; reflexivity].
  apply unbroken_app; [apply no_newline_string; reflexivity|apply decimal_unbroken].
Qed.
Lemma declaration_unbroken nv t n : supported t = true -> unbroken n -> ~ In newline (declaration (constraint nv t) n) /\ declaration (constraint nv t) n <> [].
Proof.
  intros S N. destruct (constraint_unbroken nv t S) as [U E]. split.
  - apply unbroken_app; [exact U|]. apply unbroken_app; [apply no_newline_string; reflexivity|exact N].
  - unfold declaration, ascii_text. destruct (list_ascii_of_string (constraint nv t)) eqn:L; discriminate.
Qed.
Lemma combine_map_seq {A B} (l : list A) (f : nat -> option A -> B) :
  combine l (map (fun i => f i (nth_error l i)) (seq 0 (length l))) = map (fun ix => (snd ix, f (fst ix) (Some (snd ix)))) (enumerate l).
Proof.
  unfold enumerate. enough (H : forall k pre, length pre = k -> combine l (map (fun i => f i (nth_error (pre ++ l) i)) (seq k (length l))) = map (fun ix => (snd ix, f (fst ix) (Some (snd ix)))) (enumerate_from k l)) by (apply (H 0 []); reflexivity).
  induction l as [|x l IH]; intros k pre E; [reflexivity|]. cbn [length seq map combine enumerate_from fst snd]. f_equal.
  - rewrite nth_error_app2 by lia. now rewrite E, Nat.sub_diag.
  - replace (pre ++ x :: l) with ((pre ++ [x]) ++ l) by now rewrite <- app_assoc. apply IH. rewrite app_length. cbn. lia.
Qed.
Lemma enumerate_map {A B} (f : A -> B) l : enumerate (map f l) = map (fun ix => (fst ix, f (snd ix))) (enumerate l).
Proof.
  unfold enumerate. generalize 0. induction l as [|x l IH]; intros k; [reflexivity|]. cbn [map enumerate_from fst snd]. now rewrite IH.
Qed.
Lemma enumerate_in {A} (l : list A) k ix : In ix (enumerate_from k l) -> In (snd ix) l.
Proof. revert k. induction l as [|x l IH]; intros k K; [destruct K|]. destruct K as [<-|K]; [now left|right; now apply IH in K]. Qed.
Lemma print_three k (a b : list ascii) (l : list ascii) : k = 1 -> unbroken (a ++ l ++ b) -> a <> [] -> print k (a ++ l ++ b) = ended [two ++ a ++ l ++ b].
Proof. intros -> U N. rewrite print_line; [reflexivity|exact U|]. destruct a; [congruence|discriminate]. Qed.

Definition of_schema (s : schema) (vararg varret : bool) (name class key : list ascii) : operator :=
  {| op_name := name; cpp_class_name := class; unique_key := key; is_vararg := vararg; is_varret := varret;
     arguments := map (fun a => (show (fst a), snd a)) (s_args s);
     returns := map (fun r => (show (fst r), match snd r with Some n => n | None => [] end)) (s_rets s) |}.
Definition args_fine (s : schema) : Prop := Forall (fun a => supported (fst a) = true /\ unbroken (snd a)) (s_args s).
Definition rets_fine (s : schema) : Prop :=
  Forall (fun r => supported (as_result (fst r)) = true /\ (forall n, snd r = Some n -> unbroken n /\ n <> [])) (s_rets s).
Lemma operands_text_is s va vr name class key nv : args_fine s -> va = false ->
  operands_text (of_schema s va vr name class key) nv = Some (join comma_newline (operand_declarations s nv)).
Proof.
  intros FA ->. unfold operands_text. cbn [is_vararg arguments of_schema].
  rewrite (mapM_some _ (fun a => match get_ods_type (fst a) nv false with Some t => t ++ txt ":$" ++ snd a | None => [] end)).
  2:{ apply Forall_map. eapply Forall_impl; [|exact FA]. intros [t n] [S _]. cbn [fst snd] in *. now rewrite get_ods_type_correct, S. }
  rewrite map_map. cbn [obind]. f_equal. f_equal. apply map_ext_in.
  intros [t n] K. cbn [fst snd]. unfold args_fine in FA. rewrite Forall_forall in FA. destruct (FA _ K) as [S _]. cbn [fst] in S. now rewrite get_ods_type_correct, S.
Qed.
Lemma result_declarations_is s nv : result_declarations s nv =
  map (fun er => declaration (constraint nv (as_result (fst (snd er)))) (name_of_result (1 <? length (s_rets s)) (fst er) (snd (snd er)))) (enumerate (s_rets s)).
Proof.
  unfold result_declarations, names_of_results.
  rewrite (combine_map_seq (s_rets s) (fun i r => name_of_result (1 <? length (s_rets s)) i (match r with Some r => snd r | None => None end))).
  now rewrite map_map.
Qed.
Lemma names_of_results_is s : names_of_results s = map (fun er => name_of_result (1 <? length (s_rets s)) (fst er) (snd (snd er))) (enumerate (s_rets s)).
Proof.
  unfold names_of_results.
  pose proof (combine_map_seq (s_rets s) (fun i r => name_of_result (1 <? length (s_rets s)) i (match r with Some r => snd r | None => None end))) as E.
  apply (f_equal (map snd)) in E. rewrite map_map in E. cbn [snd] in E. rewrite <- E.
  generalize (fun i => name_of_result (1 <? length (s_rets s)) i match nth_error (s_rets s) i with Some r => snd r | None => None end). intros f.
  clear E. generalize 0. induction (s_rets s) as [|x l IH]; intros k; [reflexivity|]. cbn [length seq map combine snd]. now rewrite <- IH.
Qed.
Lemma result_name_is s va vr name class key i t n : (forall m, n = Some m -> unbroken m /\ m <> []) ->
  result_name (of_schema s va vr name class key) i (show t, match n with Some m => m | None => [] end) = name_of_result (1 <? length (s_rets s)) i n.
Proof.
  intros NE. unfold result_name, name_of_result, generic_result_name. cbn [snd returns of_schema]. rewrite map_length.
  destruct n as [n|]; [destruct (NE n eq_refl) as [_ NE']; now destruct n|]. destruct (1 <? length (s_rets s)); [reflexivity|now rewrite app_nil_r].
Qed.
Lemma results_text_is s va vr name class key nv : rets_fine s -> vr = false ->
  results_text (of_schema s va vr name class key) nv = Some (join comma_newline (result_declarations s nv)).
Proof.
  intros FR ->. unfold results_text. cbn [is_varret returns of_schema]. rewrite enumerate_map.
  rewrite (mapM_some _ (fun er => match get_ods_type (fst (snd er)) nv true with Some t => t ++ txt ":$" ++ result_name (of_schema s va false name class key) (fst er) (snd er) | None => [] end)).
  2:{ apply Forall_map. apply Forall_forall. intros [i [t n]] K. cbn [fst snd]. apply enumerate_in in K. cbn [snd] in K.
      unfold rets_fine in FR. rewrite Forall_forall in FR. destruct (FR _ K) as [S _]. cbn [fst] in S. now rewrite get_ods_type_result, get_ods_type_correct, S. }
  rewrite map_map. cbn [obind fst snd]. f_equal. f_equal. rewrite result_declarations_is. apply map_ext_in.
  intros [i [t n]] K. cbn [fst snd]. apply enumerate_in in K. cbn [snd] in K.
  unfold rets_fine in FR. rewrite Forall_forall in FR. destruct (FR _ K) as [S NE]. cbn [fst snd] in *. rewrite get_ods_type_result, get_ods_type_correct, S.
  unfold declaration. f_equal. f_equal. now apply result_name_is.
Qed.
Lemma operand_declarations_fine s nv : args_fine s -> Forall (fun x => ~ In newline x /\ x <> []) (operand_declarations s nv).
Proof. intros FA. apply Forall_map. eapply Forall_impl; [|exact FA]. intros [t n] [S U]. now apply declaration_unbroken. Qed.
Lemma result_declarations_fine s nv : rets_fine s -> Forall (fun x => ~ In newline x /\ x <> []) (result_declarations s nv).
Proof.
  intros FR. rewrite result_declarations_is. apply Forall_map, Forall_forall. intros [i [t n]] K. apply enumerate_in in K. cbn [fst snd] in *.
  unfold rets_fine in FR. rewrite Forall_forall in FR. destruct (FR _ K) as [S NE]. cbn [fst snd] in *.
  apply declaration_unbroken; [exact S|]. apply name_unbroken. intros m E. now apply NE.
Qed.
Lemma hooks_print s va vr name class key : unbroken class ->
  print 1 (txt "let hasCustomAssemblyFormat = 1;") ++ print 1 (hooks (of_schema s va vr name class key)) = ended (functions class (length (s_args s)) (length (s_rets s))).
Proof.
  intros UC. unfold hooks, functions. cbn [cpp_class_name arguments returns of_schema]. rewrite !map_length.
  change (str (length (s_args s))) with (decimal (length (s_args s))). change (str (length (s_rets s))) with (decimal (length (s_rets s))).
  pose proof (decimal_unbroken (length (s_args s))) as U1. pose proof (decimal_unbroken (length (s_rets s))) as U2.
  generalize dependent (decimal (length (s_args s))). generalize dependent (decimal (length (s_rets s))). intros d2 U2 d1 U1.
  change (ended (?x :: ?l)) with (ended ([x] ++ l)). rewrite ended_app. f_equal.
  transitivity (print 1 (ended [ascii_text "let extraClassDefinition = [{";
      two ++ ascii_text "ParseResult " ++ class ++ ascii_text "::parse(OpAsmParser &parser, OperationState &result) {";
      two ++ two ++ ascii_text "return parseDefaultTorchOp(parser, result, " ++ d1 ++ ascii_text ", " ++ d2 ++ ascii_text ");";
      two ++ ascii_text "}";
      two ++ ascii_text "void " ++ class ++ ascii_text "::print(OpAsmPrinter &printer) {";
      two ++ two ++ ascii_text "printDefaultTorchOp(printer, *this, " ++ d1 ++ ascii_text ", " ++ d2 ++ ascii_text ");";
      two ++ ascii_text "}";
      ascii_text "}];"])).
  { f_equal. unfold ended. cbn [flat_map]. rewrite <- !app_assoc. reflexivity. }
  rewrite print_is, splitlines_ended.
  - cbn [map]. reflexivity.
  - repeat (apply Forall_cons); try apply Forall_nil; change (unbroken ?x) with (~ In newline x);
      repeat (apply unbroken_app); try (apply no_newline_string; reflexivity); assumption.
Qed.
Lemma emit_lines o traits ins outs format folder canonicalizer verifier nv :
  nv = existsb (text_eqb (txt "IsTrailingUnderscoreInplaceVariant")) traits ->
  operands_text o nv = Some (join comma_newline ins) -> results_text o nv = Some (join comma_newline outs) ->
  Forall (fun x => ~ In newline x /\ x <> []) ins -> Forall (fun x => ~ In newline x /\ x <> []) outs ->
  plain (op_name o) -> plain (unique_key o) -> unbroken (cpp_class_name o) -> Forall (fun t => unbroken t /\ t <> []) traits ->
  @eq (list ascii) (if is_vararg o || is_varret o then print 1 (txt "let assemblyFormat = " ++ quote (assembly_format o) ++ txt ";")
   else print 1 (txt "let hasCustomAssemblyFormat = 1;") ++ print 1 (hooks o)) (ended format) ->
  raw_emit_op o traits folder canonicalizer verifier =
  Some (ended (record_lines (op_name o) (cpp_class_name o) (unique_key o) traits ins outs format folder canonicalizer verifier)).
Proof.
  intros NV OT RT FI FO PN PK UC FT FM. unfold raw_emit_op. rewrite <- NV, OT, RT. cbn [obind].  rewrite FM. clear FM OT RT NV.
  generalize dependent (op_name o). generalize dependent (cpp_class_name o). generalize dependent (unique_key o). intros key PK class UC name PN.
  rewrite (plain_quote name PN).
  assert (PK' : plain (txt "Generated op for `" ++ key ++ txt "`")).
  { destruct PK as (K1 & K2 & K3). assert (H : forall c, In c (txt "Generated op for `" ++ key ++ txt "`") -> In c key \/ In c (txt "Generated op for `")).
    { intros c K. apply in_app_or in K as [K|K]; [now right|]. apply in_app_or in K as [K|K]; [now left|]. right. cbn in K |- *. tauto. }
    split; [|split]; intros K; (destruct (H _ K) as [K'|K']; [tauto|cbn in K'; repeat (destruct K' as [K'|K']; [discriminate|]); exact K']). }
  rewrite (plain_quote _ PK'). clear PK'.
  destruct PN as (_ & _ & UN). destruct PK as (_ & _ & UK).
  rewrite print_line.
  2:{ repeat (apply unbroken_app); try (apply no_newline_string; reflexivity); try assumption; intros [K|[]]; discriminate. }
  2:{ discriminate. }
  rewrite (print_listing 2 traits FT), (print_listing 2 ins FI), (print_listing 2 outs FO).
  rewrite (print_line 1 (txt "let summary = " ++ ([quotation] ++ (txt "Generated op for `" ++ key ++ txt "`") ++ [quotation]) ++ txt ";")).
  2:{ repeat (apply unbroken_app); try (apply no_newline_string; reflexivity); try assumption; intros [K|[]]; discriminate. }
  2:{ discriminate. }
  f_equal. unfold record_lines. rewrite !ended_app.
  change (2 * 2) with 4. change (2 * 0) with 0. change (2 * 1) with 2.
  generalize (ended (listing 4 traits)) (ended (listing 4 ins)) (ended (listing 4 outs)) (ended format). intros l1 l2 l3 l4.
  unfold ended. cbn [flat_map]. rewrite !app_nil_r, <- !app_assoc.
  destruct folder, canonicalizer, verifier; cbn [flat_map]; rewrite ?app_nil_r, <- ?app_assoc; reflexivity.
Qed.
Lemma inplace_is traits : existsb (text_eqb (txt "IsTrailingUnderscoreInplaceVariant")) traits = true <-> In inplace traits.
Proof.
  rewrite existsb_exists. split.
  - intros (x & K & E). apply text_eqb_eq in E. change (txt "IsTrailingUnderscoreInplaceVariant") with inplace in E. now rewrite E.
  - intros K. exists inplace. split; [exact K|]. reflexivity.
Qed.
Lemma join_between l : join (txt " `,` ") l = between " `,` " l.
Proof. induction l as [|x [|y l] IH]; [reflexivity..|]. change (join (txt " `,` ") (x :: y :: l)) with (x ++ txt " `,` " ++ join (txt " `,` ") (y :: l)). now rewrite IH. Qed.
Lemma between_empty l : nonempty (between " `,` " (map type_of l)) = match l with [] => false | _ => true end.
Proof. destruct l as [|x [|y l]]; reflexivity. Qed.
Lemma assembly_format_is s va vr name class key : rets_fine s -> va || vr = true ->
  assembly_format (of_schema s va vr name class key) =
  variadic_format (if va then None else Some (map snd (s_args s))) (if vr then None else Some (names_of_results s)).
Proof.
  intros FR V. unfold assembly_format, variadic_format.
  change (is_vararg (of_schema s va vr name class key)) with va. change (is_varret (of_schema s va vr name class key)) with vr.
  change (arguments (of_schema s va vr name class key)) with (map (fun a : ttype * list ascii => (show (fst a), snd a)) (s_args s)).
  change (returns (of_schema s va vr name class key)) with (map (fun r : ttype * option (list ascii) => (show (fst r), match snd r with Some n => n | None => [] end)) (s_rets s)).
  rewrite !map_map. cbn [snd]. rewrite !join_between.
  unfold text in *.
  match goal with |- context [map ?f (enumerate ?l)] => assert (R : map f (enumerate l) = map type_of (names_of_results s)) end.
  { rewrite enumerate_map, map_map, names_of_results_is, map_map. apply map_ext_in. intros [i [t n]] K. cbn [fst snd]. apply enumerate_in in K. cbn [snd] in K.
    unfold rets_fine in FR. rewrite Forall_forall in FR. destruct (FR _ K) as [S NE]. cbn [fst snd] in *. unfold type_of. now rewrite result_name_is. }
  unfold text in *. rewrite R. clear R.
  change (map (fun x : ttype * list ascii => txt "qualified(type($" ++ snd x ++ txt "))") (s_args s)) with (map (fun x : ttype * list ascii => type_of (snd x)) (s_args s)).
  rewrite <- (map_map snd type_of). rewrite <- (map_map snd (fun x => txt "$" ++ x)). change (fun x => txt "$" ++ x) with (cons "$"%char).
  destruct va, vr; try discriminate; cbn [nonempty andb]; rewrite ?between_empty; cbn [nonempty].
  - reflexivity.
  - destruct (names_of_results s); reflexivity.
  - destruct (map snd (s_args s)); reflexivity.
Qed.
Lemma mapM_none {A B} (f : A -> option B) l : (exists x, In x l /\ f x = None) -> mapM f l = None.
Proof.
  intros (x & K & E). induction l as [|y l IH]; [destruct K|]. cbn [mapM]. destruct K as [->|K]; [now rewrite E|]. rewrite IH by exact K. now destruct (f y).
Qed.
Lemma enumerate_has {A} (l : list A) x : In x l -> exists i, In (i, x) (enumerate l).
Proof.
  unfold enumerate. generalize 0. induction l as [|y l IH]; intros k K; [destruct K|]. destruct K as [->|K]; [exists k; now left|].
  destruct (IH (S k) K) as [i I']. exists i. now right.
Qed.
(** Plain texts *)
Lemma plain_app a b : plain a -> plain b -> plain (a ++ b).
Proof. intros (A1 & A2 & A3) (B1 & B2 & B3). split; [|split]; intros K; apply in_app_or in K as [K|K]; auto. Qed.
Lemma plain_string s : forallb (fun c => negb (Ascii.eqb c """" || Ascii.eqb c "\" || Ascii.eqb c (ascii_of_nat 10))) (ascii_text s) = true -> plain (ascii_text s).
Proof. intros H. split; [|split]; intros K; rewrite forallb_forall in H; specialize (H _ K); discriminate. Qed.
Lemma plain_between l : Forall plain l -> plain (between " `,` " l).
Proof.
  induction 1 as [|x l P F IH]; [split; [|split]; intros []|]. destruct l as [|y l]; [exact P|].
  change (between " `,` " (x :: y :: l)) with (x ++ ascii_text " `,` " ++ between " `,` " (y :: l)).
  apply plain_app; [exact P|]. apply plain_app; [now apply plain_string|exact IH].
Qed.
Lemma plain_type n : plain n -> plain (type_of n).
Proof. intros P. apply plain_app; [now apply plain_string|]. apply plain_app; [exact P|now apply plain_string]. Qed.
Lemma plain_format args rets : match args with Some l => Forall plain l | None => True end -> match rets with Some l => Forall plain l | None => True end ->
  plain (variadic_format args rets).
Proof.
  intros A R. unfold variadic_format. apply plain_app; [|apply plain_app; [now apply plain_string|apply plain_app; [|apply plain_app]]].
  - destruct args as [l|]; [|now apply plain_string]. apply plain_between, Forall_map. eapply Forall_impl; [|exact A].
    intros n P. apply (plain_app ["$"%char]); [now apply (plain_string "$")|exact P].
  - destruct args as [l|]; [|now apply plain_type, plain_string]. apply plain_between, Forall_map. eapply Forall_impl; [|exact A]. apply plain_type.
  - destruct args as [[|]|], rets as [[|]|]; now apply plain_string || apply (plain_string "").
  - destruct rets as [l|]; [|now apply plain_type, plain_string]. apply plain_between, Forall_map. eapply Forall_impl; [|exact R]. apply plain_type.
Qed.
Lemma decimal_digits n : forall c, In c (decimal n) -> In c (ascii_text "0123456789").
Proof.
  assert (H : forall v c, In c (list_ascii_of_string (NilEmpty.string_of_uint v)) -> In c (ascii_text "0123456789")).
  { induction v; intros c K; [destruct K|..]; (destruct K as [<-|K]; [cbn; tauto|now apply IHv]). }
  intros c K. unfold decimal, ascii_text in K. destruct (Nat.to_uint n) as [|u|u|u|u|u|u|u|u|u|u] eqn:E; [destruct K as [<-|[]]; cbn; tauto|..];
    (destruct K as [<-|K]; [cbn; tauto|now apply (H u)]).
Qed.
Lemma names_plain s : Forall (fun r : ttype * option (list ascii) => forall n, snd r = Some n -> plain n) (s_rets s) -> Forall plain (names_of_results s).
Proof.
  intros F. rewrite names_of_results_is. apply Forall_map, Forall_forall. intros [i r] K. apply enumerate_in in K. cbn [fst snd] in *. rewrite Forall_forall in F.
  specialize (F r K). unfold name_of_result. destruct (snd r) as [n|]; [now apply F|]. destruct (1 <? _); [|now apply plain_string].
  apply plain_app; [now apply plain_string|]. split; [|split]; intros K'; apply decimal_digits in K'; cbn in K'; repeat (destruct K' as [K'|K']; [discriminate|]); exact K'.
Qed.
