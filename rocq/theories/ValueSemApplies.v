(** Lemmas for C103: which slices are rewritten. *)
From Coq Require Import Arith Lia List Bool.
From Verif Require Import Prelude ValueSemModel ValueSemSpec ValueSemProofs ValueSemSim ValueSemTyping.
Import ListNotations.
Open Scope nat_scope.

Lemma ok_intro : forall al av l, (forall x, In x l -> In x al -> In x av) -> forallb (fun x => negb (inb x al) || inb x av) l = true.
Proof.
  intros al av l H. apply forallb_forall. intros x Hx. destruct (inb x al) eqn:E; [|reflexivity]. cbn [negb orb]. apply inb_In. apply H; auto. now apply inb_In.
Qed.
Lemma member_nv : forall r0 os x nv, member r0 os x -> In r0 nv -> (forall r, In r (flat_map made os) -> In r nv) -> In x nv.
Proof. intros r0 os x nv Hm H0 Hn. destruct Hm as [|k r a l Ho _]; [auto|]. apply Hn, in_flat_map. exists (View k true r a l). split; [auto|now left]. Qed.

(** * Handled slices are walked to the end *)
Section Forward.
Variables (r0 : id) (post : list op) (ret nv df0 : list id).
Hypothesis Hs0 : ssa (r0 :: df0) nv post.
Hypothesis H0 : In r0 nv.
Hypothesis Hnv : forall r, In r (flat_map made post) -> In r nv.
Hypothesis H : handled r0 post ret.
Lemma forward : forall os done al av casts df, post = done ++ os -> ssa df nv os -> (forall x, In x df <-> In x (r0 :: df0) \/ In x (flat_map defs done)) ->
  (forall x, In x df -> (In x al <-> member r0 post x)) -> (forall x, In x al -> In x df) ->
  (forall y, In y df -> member r0 post y -> In y (flat_map uses os) \/ In y ret -> In y av) ->
  (forall x y, In x df -> member r0 post x -> cast_of post x y -> y = x \/ In y (cast_aliases casts x)) ->
  exists s, interpret al av casts os ret = Some s.
Proof.
  induction os as [|o os IH]; intros done al av casts df Hp Hs Hdf Hal Hin Hav Hc.
  - cbn [interpret]. rewrite ok_intro; [eauto|]. intros x Hx Ha. assert (Hd := Hin x Ha). apply Hav; auto. now apply Hal.
  - assert (Hp' : post = (done ++ [o]) ++ os) by (rewrite <- app_assoc; exact Hp). assert (Ho : In o post) by (rewrite Hp; apply in_or_app; right; now left).
    assert (Hs' := Hs). destruct Hs as (U & N & Ty & Hs).
    assert (Hdf' : forall x, In x (defs o ++ df) <-> In x (r0 :: df0) \/ In x (flat_map defs (done ++ [o]))) by (intros x; rewrite flat_map_app; cbn [flat_map]; rewrite app_nil_r, !in_app_iff, Hdf; tauto).
    assert (Uniq : forall k r a l, In r (defs o) -> In (View k true r a l) post -> o = View k true r a l) by (intros k r a l Hr Hv; eapply (ssa_unique post _ nv _ _ r Hs0); eauto; now left).
    (* an operation whose result is not a member *)
    assert (NotMember : forall r, In r (defs o) -> (forall k a l, o = View k true r a l -> ~ member r0 post a) -> ~ member r0 post r).
    { intros r Hr Hno Hm. inversion Hm as [E|k r' a l Hv Ha E]; subst.
      - apply (N r Hr). apply Hdf. left. now left.
      - apply (Hno k a l); auto. }
    assert (Keep : forall av', (forall r, In r (defs o) -> ~ member r0 post r) -> (forall y, In y df -> member r0 post y -> In y (flat_map uses os) \/ In y ret -> In y av') -> exists s, interpret al av' casts os ret = Some s).
    { intros av' Hnm Hav'. apply (IH (done ++ [o]) al av' casts (defs o ++ df) Hp' Hs Hdf').
      - intros x Hx. apply in_app_or in Hx as [Hx|Hx]; [|auto]. split; [intros Ha; destruct (N x Hx); auto|intros Hm; destruct (Hnm x Hx Hm)].
      - intros x Hx. apply in_or_app. auto.
      - intros y Hy Hm Hu. apply in_app_or in Hy as [Hy|Hy]; [destruct (Hnm y Hy Hm)|auto].
      - intros x y Hx Hm. apply in_app_or in Hx as [Hx|Hx]; [destruct (Hnm x Hx Hm)|auto]. }
    assert (Hav1 : forall y, In y df -> member r0 post y -> In y (flat_map uses os) \/ In y ret -> In y av) by (intros y Hy Hm Hu; apply Hav; auto; cbn [flat_map]; rewrite in_app_iff; tauto).
    cbn [interpret]. destruct (touches al o) eqn:To; cbn [negb].
    + assert (Ok : forallb (fun x => negb (inb x al) || inb x av) (uses o) = true).
      { apply ok_intro. intros x Hx Ha. apply Hav; [auto|apply Hal; auto|left; cbn [flat_map]; apply in_or_app; now left]. }
      rewrite Ok. cbn [negb]. apply touches_spec in To as (z & Hz & Hza). assert (Hzm : member r0 post z) by (apply Hal; auto). assert (Hk := proj1 H o z Ho Hz Hzm).
      destruct o as [r a|r a|k b r a l|v x|k r l]; try contradiction.
      * apply Keep; auto. intros r' Hr'. apply NotMember; [exact Hr'|]. discriminate.
      * destruct b; [|apply Keep; auto; intros r' Hr'; apply NotMember; [exact Hr'|discriminate]]. specialize (Hk eq_refl). assert (Ua : In a df) by (apply U; now left). rewrite (proj2 (inb_In a al)) by (apply Hal; auto).
        assert (Nr : ~ In r df) by (apply N; now left). assert (Hrm : member r0 post r) by (apply (member_view _ _ k r a l); auto).
        apply (IH (done ++ [View k true r a l]) (r :: al) (r :: av) _ (r :: df) Hp' Hs Hdf').
        -- intros x [<-|Hx]; [split; [auto|now left]|]. rewrite <- (Hal x Hx). split; [intros [<-|]; [contradiction|auto]|now right].
        -- intros x [<-|Hx]; [now left|right; auto].
        -- intros y [<-|Hy] Hm Hu; [now left|right; auto].
        -- intros x y Hx Hm Hxy. destruct Hx as [<-|Hx].
           ++ inversion Hxy as [|x' r' a' l' Hv Ha']; subst; [now left|]. assert (Q := Uniq _ _ _ _ (or_introl eq_refl) Hv). injection Q as -> -> ->. cbn [cast_aliases]. rewrite Nat.eqb_refl. right. destruct (Hc a' y Ua Hk Ha') as [->|]; [now left|now right].
           ++ destruct (Hc x y Hx Hm Hxy) as [->|Hi]; [now left|]. right. destruct k as [|n]; [|auto]. cbn [cast_aliases]. destruct (Nat.eqb_spec r x) as [->|]; [contradiction|auto].
      * assert (Hx : x = z) by (destruct Hz as [<-|[<-|[]]]; auto; destruct Ty; apply (member_nv r0 post v nv); auto). subst z. apply Keep; [intros r []|]. intros y Hy Hm Hu.
        destruct (proj2 H done v x os y Hp Hzm Hm Hu) as [Hco|Hd].
        -- destruct (Hc x y) as [->|Hi]; auto; [now left|now right].
        -- exfalso. apply (ssa_defined _ _ _ y Hs' Hy). exact Hd.
    + assert (Un := touches_not _ _ To). apply Keep; auto. intros r Hr. apply NotMember; auto. intros k a l -> Hm. apply (Un a); [now left|]. apply Hal; auto. apply U. now left.
Qed.
Lemma forward_all : exists s, interpret [r0] [r0] [] post ret = Some s.
Proof.
  assert (Root : forall x, In x (r0 :: df0) -> member r0 post x -> x = r0).
  { intros x Hx Hm. destruct Hm as [|k r a l Ho _]; auto. exfalso. apply (ssa_defined _ _ _ r Hs0 Hx). apply in_flat_map. exists (View k true r a l). split; [auto|now left]. }
  apply (forward post [] [r0] [r0] [] (r0 :: df0)); auto.
  - intros x. cbn [flat_map In]. tauto.
  - intros x Hx. split; [intros [<-|[]]; constructor|]. intros Hm. left. symmetry. auto.
  - intros x [<-|[]]. now left.
  - intros y Hy Hm _. left. symmetry. auto.
  - intros x y Hx Hm Hxy. assert (E := Root x Hx Hm). subst x. left. inversion Hxy as [|x' r' a' l' Hv Ha']; subst; auto. exfalso. apply (ssa_defined _ _ _ r0 Hs0 Hx). apply in_flat_map. exists (View StaticInfoCast true r0 a' l'). split; [auto|now left].
Qed.
End Forward.

(** * Slices that are walked to the end are handled *)
Lemma walk_casts : forall o os ret al av casts alF castsF all, interpret al av casts (o :: os) ret = Some (alF, castsF) -> In o all -> (forall r a, In (r, a) casts -> exists l, In (View StaticInfoCast true r a l) all) ->
  exists al' av' casts', interpret al' av' casts' os ret = Some (alF, castsF) /\ (forall r a, In (r, a) casts' -> exists l, In (View StaticInfoCast true r a l) all) /\ (forall df, inside al av casts df -> inside al' av' casts' (defs o ++ df)) /\
    (match o with Overwrite v x => In x al -> av' = x :: cast_aliases casts x /\ casts' = casts | _ => True end).
Proof.
  intros o os ret al av casts alF castsF all Hi Ho Hc.
  assert (Keep : forall df, inside al av casts df -> forall av', inside al av' casts (defs o ++ df)) by (intros df [A B] av'; split; [intros x Hx; apply in_or_app; auto|exact B]).
  cbn [interpret] in Hi. destruct (touches al o) eqn:To; cbn [negb] in Hi.
  - destruct (negb (forallb _ _)) in Hi; [discriminate|]. destruct o as [r a|r a|k b r a l|v x|k r l]; try discriminate.
    + exists al, av, casts. split; [auto|]. split; [auto|]. split; [intros df Hd; eapply Keep; eauto|exact Logic.I].
    + destruct b; [|exists al, av, casts; split; [auto|]; split; [auto|]; split; [intros df Hd; eapply Keep; eauto|exact Logic.I]]. destruct (inb a al) eqn:Ia; [|discriminate]. apply inb_In in Ia. do 3 eexists. split; [exact Hi|]. split; [|split; [|exact Logic.I]].
      * intros r' a' Hr. destruct k as [|n]; [destruct Hr as [[= <- <-]|Hr]; [eauto|]|]; eauto.
      * intros df [A B]. cbn [defs app]. split; [intros y [<-|Hy]; [now left|right; auto]|]. intros r' a' Hr. destruct k as [|n]; [destruct Hr as [[= <- <-]|Hr]; [split; [now left|now right]|]|]; destruct (B _ _ Hr); split; now right.
    + exists al, (x :: cast_aliases casts x), casts. split; [auto|]. split; [auto|]. split; [intros df Hd; eapply Keep; eauto|auto].
  - exists al, av, casts. split; [auto|]. split; [auto|]. split; [intros df Hd; eapply Keep; eauto|]. destruct o as [r a|r a|k b r a l|v x|k r l]; try exact Logic.I. intros Hx. exfalso. apply (touches_not _ _ To x); auto. right. now left.
Qed.
Lemma walk_prefix : forall done os ret al av casts alF castsF all df, interpret al av casts (done ++ os) ret = Some (alF, castsF) -> (forall o, In o done -> In o all) -> (forall r a, In (r, a) casts -> exists l, In (View StaticInfoCast true r a l) all) -> inside al av casts df ->
  exists al' av' casts', interpret al' av' casts' os ret = Some (alF, castsF) /\ (forall r a, In (r, a) casts' -> exists l, In (View StaticInfoCast true r a l) all) /\ inside al' av' casts' (flat_map defs done ++ df).
Proof.
  induction done as [|o done IH]; intros os ret al av casts alF castsF all df Hi Ho Hc Hin; [exists al, av, casts; auto|]. cbn [app] in Hi.
  destruct (walk_casts _ _ _ _ _ _ _ _ all Hi (Ho o (or_introl eq_refl)) Hc) as (al1 & av1 & casts1 & Hi1 & Hc1 & Hin1 & _).
  destruct (IH os ret al1 av1 casts1 alF castsF all (defs o ++ df) Hi1 (fun o' H' => Ho o' (or_intror H')) Hc1 (Hin1 df Hin)) as (al2 & av2 & casts2 & Hi2 & Hc2 & Hin2).
  exists al2, av2, casts2. split; [auto|]. split; [auto|]. destruct Hin2 as [A B]. split; auto. intros x Hx. specialize (A x Hx). cbn [flat_map]. rewrite !in_app_iff in *. tauto.
Qed.
Lemma walk_allowed : forall (P : id -> Prop) alF castsF os ret al av casts df nv, interpret al av casts os ret = Some (alF, castsF) -> inside al av casts df -> ssa df nv os -> (forall z, In z al -> In z nv) -> (forall r, In r (flat_map made os) -> In r nv) ->
  (forall z, In z av -> P z) -> (forall r a, In (r, a) casts -> P r -> P a) -> (forall r, In r (flat_map defs os) -> P r) -> (forall x, In x ret -> In x df \/ In x (flat_map defs os)) ->
  forall y, In y (flat_map uses os) \/ In y ret -> In y alF -> P y.
Proof.
  intros P alF castsF. assert (Chain : forall casts x, (forall r a, In (r, a) casts -> P r -> P a) -> P x -> forall y, In y (cast_aliases casts x) -> P y).
  { induction casts as [|[r a] casts IH]; intros x Hc Hx y Hy; [destruct Hy|]. cbn [cast_aliases] in Hy. assert (Hc' : forall r a, In (r, a) casts -> P r -> P a) by (intros r' a' H'; apply Hc; now right).
    destruct (Nat.eqb_spec r x) as [->|]; [|eapply IH; eauto]. assert (Pa : P a) by (apply (Hc x a); auto; now left). destruct Hy as [<-|Hy]; auto. eapply IH; eauto. }
  induction os as [|o os IH]; intros ret al av casts df nv Hi Hin Hs Hn Hmk Hav Hc Hd Hret y Hy Ha.
  - cbn [interpret] in Hi. destruct (forallb _ ret) eqn:Hok in Hi; [|discriminate]. injection Hi as -> ->. destruct Hy as [[]|Hy]. destruct (ok_spec _ _ _ Hok y Hy); [contradiction|auto].
  - assert (Mem := walk_mem _ _ _ _ _ _ _ _ _ _ Hi Hin Hs). destruct (walk_next _ _ _ _ _ _ _ _ _ Hi Hin) as (al0 & av0 & casts0 & Hi0 & Hin0). destruct Hs as (U & N & Ty & Hs).
    assert (Hret' : forall x, In x ret -> In x (defs o ++ df) \/ In x (flat_map defs os)) by (intros x Hx; destruct (Hret x Hx) as [H|H]; [left; apply in_or_app; now right|cbn [flat_map] in H; apply in_app_or in H as [H|H]; [left; apply in_or_app; now left|now right]]).
    assert (Hmk' : forall r, In r (flat_map made os) -> In r nv) by (intros r Hr; apply Hmk; cbn [flat_map]; apply in_or_app; now right).
    assert (Hd' : forall r, In r (flat_map defs os) -> P r) by (intros r Hr; apply Hd; cbn [flat_map]; apply in_or_app; now right).
    assert (Here : touches al o = true -> In y (uses o) -> P y).
    { intros To Hu. cbn [interpret] in Hi. rewrite To in Hi. cbn [negb] in Hi. destruct (forallb _ (uses o)) eqn:Hok in Hi; [|discriminate]. destruct (ok_spec _ _ _ Hok y Hu) as [Hnn|Hv]; [|auto]. destruct Hnn. apply Mem; auto. }
    assert (Split : In y (uses o) \/ In y (flat_map uses os) \/ In y ret) by (destruct Hy as [Hy|Hy]; [cbn [flat_map] in Hy; apply in_app_or in Hy as [Hy|Hy]; auto|auto]).
    destruct Split as [Hu|Hy'].
    + destruct (touches al o) eqn:To; auto. exfalso. apply (touches_not _ _ To y Hu). apply Mem; auto.
    + assert (Keep : forall av', (forall z, In z av' -> P z) -> interpret al av' casts os ret = Some (alF, castsF) -> P y).
      { intros av' Hav' H'. apply (IH ret al av' casts (defs o ++ df) nv H'); auto. destruct Hin as [A B]. split; auto. intros x Hx. apply in_or_app. auto. }
      cbn [interpret] in Hi. destruct (touches al o) eqn:To; cbn [negb] in Hi; [|eauto]. destruct (forallb _ (uses o)) eqn:Hok in Hi; cbn [negb] in Hi; [|discriminate]. destruct o as [r a|r a|k b r a l|v x|k r l]; try discriminate; eauto.
      * destruct b; [|eauto]. destruct (inb a al) eqn:Ia; [|discriminate]. apply inb_In in Ia. assert (Pr : P r) by (apply Hd; cbn [flat_map defs app]; now left).
        assert (Pa : P a) by (destruct (ok_spec _ _ _ Hok a (or_introl eq_refl)); [contradiction|auto]).
        apply (IH ret _ _ _ (r :: df) nv Hi); auto.
        -- destruct Hin as [A B]. split; [intros z [<-|Hz]; [now left|right; auto]|]. intros r' a' Hr. destruct k as [|n]; [destruct Hr as [[= <- <-]|Hr]; [split; [now left|now right]|]|]; destruct (B _ _ Hr); split; now right.
        -- intros z [<-|Hz]; auto. apply Hmk. cbn [flat_map made app]. now left.
        -- intros z [<-|Hz]; auto.
        -- intros r' a' Hr. destruct k as [|n]; [destruct Hr as [[= <- <-]|Hr]; [auto|]|]; eauto.
      * assert (Hx : In x al) by (apply touches_spec in To as (z & [<-|[<-|[]]] & Hz); [destruct Ty; auto|auto]). assert (Px : P x) by (destruct (ok_spec _ _ _ Hok x (or_intror (or_introl eq_refl))); [contradiction|auto]).
        apply (Keep (x :: cast_aliases casts x)); auto. intros z [<-|Hz]; auto. eapply Chain; eauto.
Qed.
Lemma backward : forall r0 post ret nv df0 s, ssa (r0 :: df0) nv post -> In r0 nv -> (forall r, In r (flat_map made post) -> In r nv) -> (forall x, In x ret -> In x (r0 :: df0) \/ In x (flat_map defs post)) ->
  interpret [r0] [r0] [] post ret = Some s -> handled r0 post ret.
Proof.
  intros r0 post ret nv df0 [alF castsF] Hs H0 Hnv Hret Hi. assert (Mem := slice_member _ _ _ _ _ _ _ Hi Hs). assert (Hin : inside [r0] [r0] [] (r0 :: df0)) by (split; [intros y [<-|[]]; now left|intros r a []]).
  assert (Split : forall p1 p2, post = p1 ++ p2 -> exists al av casts, interpret al av casts p2 ret = Some (alF, castsF) /\ (forall r a, In (r, a) casts -> exists l, In (View StaticInfoCast true r a l) post) /\ inside al av casts (flat_map defs p1 ++ r0 :: df0) /\ ssa (flat_map defs p1 ++ r0 :: df0) nv p2).
  { intros p1 p2 Hp. assert (Hi' := Hi). rewrite Hp in Hi'. destruct (walk_prefix p1 p2 ret [r0] [r0] [] alF castsF post (r0 :: df0) Hi') as (al & av & casts & Hi2 & Hc2 & Hin2); auto.
    - intros o Ho. rewrite Hp. apply in_or_app. now left.
    - intros r a [].
    - exists al, av, casts. split; [auto|]. split; [auto|]. split; [auto|]. rewrite Hp in Hs. apply ssa_app in Hs. tauto. }
  split.
  - intros o x Ho Hx Hm. apply in_split in Ho as (p1 & p2 & Hp). destruct (Split p1 (o :: p2) Hp) as (al & av & casts & Hi2 & Hc2 & Hin2 & Hs2).
    assert (Mem2 := walk_mem _ _ _ _ _ _ _ _ _ _ Hi2 Hin2 Hs2). destruct Hs2 as (U & N & Ty & Hs2). assert (Hxa : In x al) by (apply Mem2; [auto|apply Mem; auto]).
    assert (To : touches al o = true) by (apply touches_spec; eauto). cbn [interpret] in Hi2. rewrite To in Hi2. cbn [negb] in Hi2. destruct (negb (forallb _ _)) in Hi2; [discriminate|]. destruct o as [r a|r a|k b r a l|v y|k r l]; try discriminate; auto.
    intros ->. destruct (inb a al) eqn:Ia; [|discriminate]. apply inb_In in Ia. apply Mem, Mem2; auto. apply U. now left.
  - intros p1 v x p2 y Hp Hx Hy Hu. destruct (Split p1 (Overwrite v x :: p2) Hp) as (al & av & casts & Hi2 & Hc2 & Hin2 & Hs2).
    assert (Mem2 := walk_mem _ _ _ _ _ _ _ _ _ _ Hi2 Hin2 Hs2). assert (Hs3 := Hs2). destruct Hs2 as (U & N & Ty & Hs2). assert (Hxa : In x al) by (apply Mem2; [apply U; cbn; auto|apply Mem; auto]).
    assert (Ho : In (Overwrite v x) post) by (rewrite Hp; apply in_or_app; right; now left).
    destruct (walk_casts _ _ _ _ _ _ _ _ post Hi2 Ho Hc2) as (al1 & av1 & casts1 & Hi3 & Hc3 & Hin3 & Hov). destruct (Hov Hxa) as [-> ->]. specialize (Hin3 _ Hin2). cbn [defs app] in Hin3, Hs2.
    assert (Trans : forall z, cast_of post x z -> forall w l, In (View StaticInfoCast true z w l) post -> cast_of post x w).
    { clear. intros z Hz w l Hw. induction Hz as [z|z r a l' Hv Hz IHz]; [apply (cast_step _ _ z w l); [auto|constructor]|]. apply (cast_step _ _ r a l'); auto. }
    assert (Sub : forall z, In z (flat_map made p2) -> In z nv) by (intros z Hz; apply Hnv; rewrite Hp, flat_map_app; apply in_or_app; right; cbn [flat_map made app]; exact Hz).
    assert (Aln : forall z, In z al1 -> In z nv).
    { intros z Hz. apply (member_nv r0 post z nv); auto. apply Mem. destruct (interpret_grows _ _ _ _ _ _ _ Hi3) as (na & nc & Ea & _). rewrite Ea. apply in_or_app. now right. }
    apply (walk_allowed (fun z => cast_of post x z \/ In z (flat_map defs p2)) alF castsF p2 ret al1 _ casts _ nv Hi3 Hin3 Hs2 Aln Sub).
    + assert (Chain : forall cs z, (forall r a, In (r, a) cs -> exists l, In (View StaticInfoCast true r a l) post) -> cast_of post x z -> forall w, In w (cast_aliases cs z) -> cast_of post x w).
      { induction cs as [|[r a] cs IHc]; intros z Hcs Hz w Hw; [destruct Hw|]. cbn [cast_aliases] in Hw. assert (Hcs' : forall r a, In (r, a) cs -> exists l, In (View StaticInfoCast true r a l) post) by (intros r' a' H'; apply Hcs; now right).
        destruct (Nat.eqb_spec r z) as [->|]; [|eapply IHc; eauto]. destruct (Hcs z a (or_introl eq_refl)) as (l & Hl). assert (Ha := Trans z Hz a l Hl). destruct Hw as [<-|Hw]; [auto|]. eapply IHc; eauto. }
      intros z [<-|Hz]; left; [constructor|]. eapply Chain; eauto. constructor.
    + intros r a Hr Hrp. destruct (Hc3 r a Hr) as (l & Hl). destruct Hrp as [Hrp|Hrp]; [left; eapply Trans; eauto|]. exfalso. destruct Hin3 as [A B]. destruct (B r a Hr) as [Hra _]. apply (ssa_defined _ _ _ r Hs2); auto.
    + auto.
    + intros z Hz. destruct (Hret z Hz) as [H|H]; [left; apply in_or_app; now right|]. rewrite Hp, flat_map_app in H. cbn [flat_map defs app] in H. apply in_app_or in H as [H|H]; [left; apply in_or_app; now left|now right].
    + exact Hu.
    + apply Mem. exact Hy.
Qed.
Lemma split_at_complete : forall r0 pre a0 post, ~ In r0 (flat_map defs pre) -> split_at r0 (pre ++ CopyTo r0 a0 :: post) = Some (pre, a0, post).
Proof.
  intros r0. induction pre as [|o pre IH]; intros a0 post N; [cbn [app split_at]; now rewrite Nat.eqb_refl|]. cbn [flat_map] in N. rewrite in_app_iff in N. assert (E : split_at r0 (pre ++ CopyTo r0 a0 :: post) = Some (pre, a0, post)) by (apply IH; tauto).
  cbn [app]. destruct o as [r a|r a|k nv r a l|v x|k r l]; cbn [split_at]; rewrite E; auto. destruct (Nat.eqb_spec r r0) as [->|]; auto. destruct N. left. now left.
Qed.
