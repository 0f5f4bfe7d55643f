(** Proofs about DecNmsModel.v. *)
From Coq Require Import ZArith Bool PeanoNat Lia List.
From Verif Require Import Prelude DecTopkModel DecNmsModel.
Import ListNotations.
Open Scope Z_scope.

(** Greedy suppression: a box is kept unless one that was kept before suppresses it. *)
Inductive greedy (sup : nat -> nat -> bool) : list nat -> list nat -> list nat -> Prop :=
| greedy_nil : forall kept, greedy sup kept [] []
| greedy_drop : forall kept x r out, (exists k, In k kept /\ sup k x = true) -> greedy sup kept r out -> greedy sup kept (x :: r) out
| greedy_keep : forall kept x r out, (forall k, In k kept -> sup k x = false) -> greedy sup (kept ++ [x]) r out -> greedy sup kept (x :: r) (x :: out).

Lemma put_length : forall (A : Type) i (v : A) l, length (put_at i v l) = length l.
Proof. intros A i v l. revert i. induction l as [|x l IH]; intros [|i]; cbn; auto. Qed.
Lemma put_nth : forall (A : Type) (d v : A) l i j, (i < length l)%nat -> nth j (put_at i v l) d = if (j =? i)%nat then v else nth j l d.
Proof.
  intros A d v l. induction l as [|x l IH]; intros [|i] [|j] H; cbn in *; try lia; auto. apply IH. lia.
Qed.
Lemma put_firstn : forall (A : Type) (v : A) l i, (i < length l)%nat -> firstn (i + 1) (put_at i v l) = firstn i l ++ [v].
Proof. intros A v l. induction l as [|x l IH]; intros [|i] H; cbn in *; try lia; auto. f_equal. apply IH. lia. Qed.

Section Loops.
Variable sup : nat -> nat -> bool.
Variable order : list nat.
Let len := length order.
Let ord i := nth i order 0%nat.

Lemma inner_fold : forall c i s mask j, length mask = len -> (j < len)%nat ->
  length (fold_left (inner_body sup order i) (seq s c) mask) = len /\
  nth j (fold_left (inner_body sup order i) (seq s c) mask) false =
    (nth j mask false && negb (((s + i + 1 <=? j) && (j <? s + i + 1 + c))%nat && sup (ord i) (ord j))).
Proof.
  induction c as [|c IH]; intros i s mask j L J; cbn [seq fold_left].
  - split; [exact L|]. replace ((s + i + 1 <=? j) && (j <? s + i + 1 + 0))%nat with false; [now rewrite andb_true_r|].
    symmetry. apply andb_false_iff. rewrite Nat.leb_gt, Nat.ltb_ge. lia.
  - assert (L' : length (inner_body sup order i mask s) = len).
    { unfold inner_body. destruct (_ <? _)%nat; [|exact L]. destruct (sup _ _); [rewrite put_length|]; exact L. }
    destruct (IH i (S s) _ j L' J) as (A & C). split; [exact A|]. rewrite C.
    assert (E : nth j (inner_body sup order i mask s) false = nth j mask false && negb ((j =? s + i + 1)%nat && sup (ord i) (ord j))).
    { unfold inner_body. fold len. destruct (Nat.ltb_spec (s + i + 1) len) as [H|H].
      - fold (ord i). fold (ord (s + i + 1)). destruct (sup (ord i) (ord (s + i + 1))) eqn:Q.
        + rewrite put_nth by lia. destruct (Nat.eqb_spec j (s + i + 1)) as [->|N]; [rewrite Q; cbn; now rewrite andb_false_r|cbn; now rewrite andb_true_r].
        + destruct (Nat.eqb_spec j (s + i + 1)) as [->|N]; [rewrite Q|]; cbn; now rewrite andb_true_r.
      - destruct (Nat.eqb_spec j (s + i + 1)) as [->|N]; [lia|]. cbn. now rewrite andb_true_r. }
    rewrite E, <- andb_assoc. f_equal. rewrite <- negb_orb. f_equal. rewrite <- andb_orb_distrib_l. f_equal.
    destruct (Nat.eqb_spec j (s + i + 1)), (Nat.leb_spec (S s + i + 1) j), (Nat.ltb_spec j (S s + i + 1 + c)), (Nat.leb_spec (s + i + 1) j), (Nat.ltb_spec j (s + i + 1 + S c)); try lia; reflexivity.
Qed.
Lemma outer_fold : forall suf pre kept mask res, order = pre ++ suf -> length mask = len -> length res = len ->
  (length kept <= length pre)%nat -> firstn (length kept) res = kept ->
  (forall j, (length pre <= j < len)%nat -> nth j mask false = negb (existsb (fun k => sup k (ord j)) kept)) ->
  exists out, greedy sup kept suf out /\
    (let '(_, r, c) := fold_left (outer_body sup order) (seq (length pre) (length suf)) (mask, res, length kept) in firstn c r) = kept ++ out.
Proof.
  induction suf as [|x suf IH]; intros pre kept mask res O1 Lm Lr Lk Fk M; cbn [length seq fold_left].
  - exists []. split; [constructor|]. now rewrite app_nil_r.
  - assert (Lo : (len = length pre + S (length suf))%nat) by (unfold len; rewrite O1, app_length; reflexivity).
    assert (Ox : ord (length pre) = x) by (unfold ord; rewrite O1, app_nth2, Nat.sub_diag by lia; reflexivity).
    assert (Lp : length (pre ++ [x]) = S (length pre)) by (rewrite app_length; cbn; lia).
    assert (O2 : order = (pre ++ [x]) ++ suf) by (rewrite <- app_assoc; exact O1).
    cbn [outer_body]. rewrite (M (length pre)) by lia. rewrite Ox. destruct (existsb (fun k => sup k x) kept) eqn:Q; cbn [negb].
    + destruct (IH (pre ++ [x]) kept mask res O2 Lm Lr ltac:(lia) Fk) as (out & G & E).
      { intros j J. apply M. lia. }
      exists out. rewrite Lp in E. split; [|exact E]. apply greedy_drop; [|exact G]. apply existsb_exists in Q. exact Q.
    + fold (ord (length pre)). rewrite Ox. fold len.
      assert (Lk' : length (kept ++ [x]) = (length kept + 1)%nat) by (rewrite app_length; reflexivity).
      destruct (IH (pre ++ [x]) (kept ++ [x]) (fold_left (inner_body sup order (length pre)) (seq 0 len) mask) (put_at (length kept) x res) O2) as (out & G & E).
      * apply (inner_fold len (length pre) 0 mask (length pre) Lm). lia.
      * now rewrite put_length.
      * lia.
      * rewrite Lk', put_firstn by lia. now rewrite Fk.
      * intros j J. rewrite (proj2 (inner_fold len (length pre) 0 mask j Lm ltac:(lia))). rewrite M by lia. rewrite Ox.
        rewrite existsb_app. cbn [existsb]. rewrite orb_false_r, negb_orb. f_equal. f_equal.
        replace ((0 + length pre + 1 <=? j) && (j <? 0 + length pre + 1 + len))%nat with true; [reflexivity|].
        symmetry. apply andb_true_iff. rewrite Nat.leb_le, Nat.ltb_lt. lia.
      * exists (x :: out). rewrite Lp, Lk' in E. split.
        -- apply greedy_keep; [|exact G]. intros k K. destruct (sup k x) eqn:Y; [|reflexivity]. exfalso.
           assert (X : existsb (fun k => sup k x) kept = true) by (apply existsb_exists; eauto). congruence.
        -- rewrite E. rewrite <- app_assoc. reflexivity.
Qed.
Lemma nms_greedy : forall empty, length empty = len -> greedy sup [] order (nms_loops sup order empty).
Proof.
  intros empty L. destruct (outer_fold order [] [] (repeat true len) empty eq_refl) as (out & G & E); auto.
  - apply repeat_length.
  - intros j J. cbn [existsb negb]. rewrite nth_indep with (d' := true) by (rewrite repeat_length; lia). apply nth_repeat.
  - cbn [length] in E. fold len in E. unfold nms_loops. fold len. rewrite E. exact G.
Qed.
End Loops.

Lemma greedy_det : forall sup kept l a, greedy sup kept l a -> forall b, greedy sup kept l b -> a = b.
Proof.
  intros sup kept l a G. induction G as [kept|kept x r out (k & K & Q) G IH|kept x r out H G IH]; intros b Gb; inversion Gb; subst; auto.
  - exfalso. match goal with X : forall k, In k kept -> _ |- _ => specialize (X k K); congruence end.
  - exfalso. match goal with X : exists k, _ |- _ => destruct X as (k & K & Q); specialize (H k K); congruence end.
  - f_equal. auto.
Qed.
(** What it keeps. *)
Lemma greedy_in : forall sup kept l out, greedy sup kept l out -> forall x, In x out -> In x l /\ (forall k, In k kept -> sup k x = false).
Proof.
  intros sup kept l out G. induction G as [kept|kept x r out D G IH|kept x r out H G IH]; intros y Y; [destruct Y| |].
  - destruct (IH y Y). split; [now right|assumption].
  - destruct Y as [<-|Y]; [split; [now left|exact H]|]. destruct (IH y Y) as (A & C). split; [now right|].
    intros k K. apply C. apply in_or_app. now left.
Qed.
Lemma greedy_apart : forall sup kept l out, greedy sup kept l out -> forall i j, (i < j < length out)%nat -> sup (nth i out 0%nat) (nth j out 0%nat) = false.
Proof.
  intros sup kept l out G. induction G as [kept|kept x r out D G IH|kept x r out H G IH]; intros i j J; cbn [length] in J; [lia|auto|].
  destruct j as [|j]; [lia|]. destruct i as [|i]; cbn [nth]; [|apply IH; lia].
  apply (greedy_in _ _ _ _ G); [apply nth_In; lia|]. apply in_or_app. right. now left.
Qed.
Lemma greedy_dropped : forall sup kept l out, greedy sup kept l out -> forall x, In x l -> In x out \/ exists k, (In k kept \/ In k out) /\ sup k x = true.
Proof.
  intros sup kept l out G. induction G as [kept|kept x r out (k & K & Q) G IH|kept x r out H G IH]; intros y Y; [destruct Y| |].
  - destruct Y as [<-|Y]; [right; exists k; auto|]. now apply IH.
  - destruct Y as [<-|Y]; [left; now left|]. destruct (IH y Y) as [A|(k & K & Q)]; [left; now right|]. right. exists k. split; [|exact Q].
    destruct K as [K|K]; [|right; now right]. apply in_app_or in K. destruct K as [K|[<-|[]]]; [now left|right; now left].
Qed.

(** [w] is the length of what two intervals have in common. *)
Definition between (a b t : Z) : Prop := (a <= t < b) \/ (b <= t < a).
Definition common (a b c d w : Z) : Prop := 0 <= w /\ exists s, forall t, between a b t /\ between c d t <-> s <= t < s + w.
Lemma common_is : forall a b c d w, common a b c d w <-> w = Z.max (Z.min (Z.max c d) (Z.max a b) - Z.max (Z.min c d) (Z.min a b)) 0.
Proof.
  intros a b c d w. unfold common, between. set (hi := Z.min (Z.max c d) (Z.max a b)). set (lo := Z.max (Z.min c d) (Z.min a b)).
  assert (X : forall t, ((a <= t < b \/ b <= t < a) /\ (c <= t < d \/ d <= t < c)) <-> lo <= t < hi) by (intros t; unfold lo, hi; lia).
  split.
  - intros (P & s & H). assert (Y : forall t, lo <= t < hi <-> s <= t < s + w) by (intros t; rewrite <- X; apply H).
    clear X H. clearbody lo hi. destruct (Z.le_gt_cases hi lo) as [C|C].
    + assert (w <= 0); [|lia]. destruct (Z.le_gt_cases w 0) as [|W]; [assumption|]. destruct (proj2 (Y s) ltac:(lia)). lia.
    + assert (0 < w) by (destruct (proj1 (Y lo) ltac:(lia)); lia).
      destruct (proj1 (Y lo) ltac:(lia)), (proj1 (Y (hi - 1)) ltac:(lia)), (proj2 (Y s) ltac:(lia)), (proj2 (Y (s + w - 1)) ltac:(lia)). lia.
  - intros ->. split; [apply Z.le_max_r|]. exists lo. intros t. rewrite X. clear X. clearbody lo hi. lia.
Qed.
