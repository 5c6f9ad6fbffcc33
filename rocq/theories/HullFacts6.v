(** * The vertices of a hull are distinct *)
From Coq Require Import ZArith List Bool Reals Lra Lia Permutation.
From Verif Require Import Num Vec Affine Box Seq Polygon Hull SpecGeom SpecHull SpecExtreme SpecConvex SpecMass RBase VecFacts2 SortFacts HullFacts HullFacts2 HullFacts3 HullFacts4.
Import ListNotations.
Local Open Scope R_scope.

Lemma NoDup_app_iff {A} (l m : list A) : NoDup (l ++ m) <-> NoDup l /\ NoDup m /\ forall x, In x l -> ~ In x m.
Proof.
  induction l as [|a l IH]; cbn [app]; [split; [intro H; repeat split; auto; constructor|tauto]|]. split.
  - intro H. inversion H as [|? ? H1 H2]; subst. apply IH in H2 as (A1 & A2 & A3). rewrite in_app_iff in H1. split; [constructor; tauto|]. split; auto. intros x [<-|Hx]; auto.
  - intros (H1 & H2 & H3). inversion H1; subst. constructor; [rewrite in_app_iff; intros [X|X]; [auto|apply (H3 a); [left; auto|auto]]|]. apply IH. repeat split; auto. intros x Hx. apply H3. right; auto.
Qed.
Lemma pop_nodup (p : pt) : forall s, NoDup s -> NoDup (scan_pop p s).
Proof. induction s as [|b s IH]; auto. destruct s as [|a r]; auto. intro H. cbn [scan_pop]. destruct (nleb _ _); auto. apply IH. inversion H; auto. Qed.
Lemma scan_nodup : forall (l s : list pt), NoDup (l ++ s) -> NoDup (fold_left scan_step l s).
Proof.
  induction l as [|p l IH]; intros s H; cbn [fold_left app] in *; auto. apply IH. inversion H as [|? ? H1 H2]; subst. apply NoDup_app_iff in H2 as (A & B & C). apply NoDup_app_iff.
  split; auto. split.
  - unfold scan_step. constructor; [|apply pop_nodup; auto]. intro X. apply H1, in_or_app. right. eapply pop_in; eauto.
  - intros x Hx [<-|X]; [apply H1, in_or_app; auto|]. apply (C x Hx). eapply pop_in; eauto.
Qed.
Lemma sort_nodup (pts : list pt) p0 p1 : NoDup pts -> ~ In p0 pts -> ~ In p1 pts -> p0 <> p1 ->
  NoDup (ahull_sort pts p0 p1) /\ forall v, In v (ahull_sort pts p0 p1) -> v = p0 \/ In v pts.
Proof.
  intros H H0 H1 H01. unfold ahull_sort. set (lt := fun a b : vec R => nltb _ _).
  assert (P : Permutation (sort_by lt pts) pts) by apply sort_perm.
  rewrite fold_left_app. cbn [fold_left]. unfold scan_step at 1. cbn [tl].
  assert (ND : NoDup (fold_left scan_step (sort_by lt pts) [p0])).
  { apply scan_nodup, NoDup_app_iff. split; [apply (Permutation_NoDup (l := pts)); auto; symmetry; auto|]. split; [constructor; [intros []|constructor]|].
    intros x Hx [<-|[]]. apply H0. apply (Permutation_in _ P Hx). }
  split.
  - apply NoDup_rev, pop_nodup. auto.
  - intros v Hv. apply in_rev in Hv. apply pop_in in Hv.
    assert (G : forall l s w, In w (fold_left scan_step l s) -> In w l \/ In w s).
    { clear. induction l as [|p l IH]; intros s w; cbn [fold_left]; auto. intro X. apply IH in X as [X|[X|X]]; [left; right; auto|left; left; auto|right; eapply pop_in; eauto]. }
    apply G in Hv as [Hv|[->|[]]]; auto. right. apply (Permutation_in _ P Hv).
Qed.
Lemma lefts_nodup p0 pp pts : NoDup pts -> NoDup (lefts p0 pp pts).
Proof. apply NoDup_filter. Qed.
Lemma rights_nodup p0 p1 pp pts : NoDup pts -> NoDup (rights p0 p1 pp pts).
Proof. apply NoDup_filter. Qed.
Lemma part_nodup : forall fuel (pts : list pt) p0 p1 h, ahull_partition fuel pts p0 p1 = Ok h -> pts <> [] -> NoDup pts -> (forall q, In q pts -> 0 <= orient p0 p1 q) -> ~ In p0 pts -> ~ In p1 pts -> p0 <> p1 ->
  NoDup h /\ (forall v, In v h -> v = p0 \/ In v pts) /\ (exists pp, In pp h /\ In pp pts /\ forall q, In q pts -> orient p0 p1 q <= orient p0 p1 pp) /\ (exists t, h = p0 :: t).
Proof.
  induction fuel as [|f IH]; intros pts p0 p1 h E Hne HN H0 I0 I1 I01; cbn [ahull_partition] in E; [discriminate|].
  destruct (far_spec pts p0 p1 Hne H0) as (pp & EF & Hi & Hf). rewrite EF in E. rewrite vec2_of_R in E.
  assert (Npp0 : p0 <> pp) by (intros ->; auto). assert (Npp1 : pp <> p1) by (intros ->; auto).
  destruct (Rle_lt_or_eq_dec 0 (orient p0 p1 pp)) as [D|D]; auto.
  2:{ rewrite part_flat in E by auto. cbn [bind length Nat.leb app] in E. injection E as <-. split; [constructor; [intros [X|[]]; auto|constructor; [intros []|constructor]]|].
      split; [intros v [<-|[<-|[]]]; auto|]. split; [exists pp; split; [right; left; auto|auto]|eauto]. }
  rewrite part_spec in E by auto. cbn [bind] in E. set (lft := lefts p0 pp pts) in *. set (rgt := rights p0 p1 pp pts) in *. set (m := ((length pts - length lft - length rgt) * 4)%nat) in *.
  assert (L1 : forall v, In v lft -> In v pts /\ 0 < orient p0 pp v) by (intros v Hv; apply lefts_in in Hv; auto).
  assert (R1 : forall v, In v rgt -> In v pts /\ orient p0 pp v <= 0 /\ 0 < orient pp p1 v) by (intros v Hv; apply rights_in in Hv; auto).
  assert (Lpp : ~ In pp lft) by (intro X; apply L1 in X as [_ X]; rewrite orient_self in X; lra).
  assert (Rpp : ~ In pp rgt) by (intro X; apply R1 in X as (_ & _ & X); rewrite orient_self1 in X; lra).
  assert (Lp0 : ~ In p0 lft) by (intro X; apply L1 in X as [X _]; auto). assert (Rp1 : ~ In p1 rgt) by (intro X; apply R1 in X as (X & _); auto).
  assert (NL : NoDup lft) by (apply lefts_nodup; auto). assert (NR : NoDup rgt) by (apply rights_nodup; auto).
  assert (A : forall h1, (if Nat.leb (length lft) 1 then Ok (p0 :: lft) else if Nat.leb (length lft) m then ahull_partition f lft p0 pp else Ok (ahull_sort lft p0 pp)) = Ok h1 ->
    NoDup h1 /\ (forall v, In v h1 -> v = p0 \/ In v lft) /\ exists t, h1 = p0 :: t).
  { intros h1. destruct (Nat.leb_spec (length lft) 1) as [K|K]; [intro X; injection X as <-; split; [constructor; auto|]; split; [intros v [<-|Hv]; auto|eauto]|].
    destruct (Nat.leb (length lft) m).
    - intro X. destruct (IH lft p0 pp h1 X) as (B1 & B2 & _ & B3); auto. { intros Z. rewrite Z in K. cbn in K. lia. } intros q Hq. apply L1 in Hq. lra.
    - intro X. injection X as <-. destruct (sort_nodup lft p0 pp) as [B1 B2]; auto. split; auto. split; auto. apply sort_head. }
  assert (B : forall h2, (if Nat.leb (length rgt) 1 then Ok (pp :: rgt) else if Nat.leb (length rgt) m then ahull_partition f rgt pp p1 else Ok (ahull_sort rgt pp p1)) = Ok h2 ->
    NoDup h2 /\ (forall v, In v h2 -> v = pp \/ In v rgt) /\ exists t, h2 = pp :: t).
  { intros h2. destruct (Nat.leb_spec (length rgt) 1) as [K|K]; [intro X; injection X as <-; split; [constructor; auto|]; split; [intros v [<-|Hv]; auto|eauto]|].
    destruct (Nat.leb (length rgt) m).
    - intro X. destruct (IH rgt pp p1 h2 X) as (B1 & B2 & _ & B3); auto. { intros Z. rewrite Z in K. cbn in K. lia. } intros q Hq. apply R1 in Hq. lra.
    - intro X. injection X as <-. destruct (sort_nodup rgt pp p1) as [B1 B2]; auto. split; auto. split; auto. apply sort_head. }
  match type of E with (let* h1 := ?a in _) = _ => destruct a as [h1|] eqn:E1; [|discriminate] end. cbn [bind] in E.
  match type of E with (let* h2 := ?a in _) = _ => destruct a as [h2|] eqn:E2; [|discriminate] end. cbn [bind] in E. injection E as <-.
  destruct (A h1 eq_refl) as (A1 & A2 & t1 & A3). destruct (B h2 eq_refl) as (B1 & B2 & t2 & B3). split; [|split; [|split]].
  - apply NoDup_app_iff. split; auto. split; auto. intros x Hx Hy. apply A2 in Hx. apply B2 in Hy. destruct Hx as [->|Hx], Hy as [Hy|Hy]; auto.
    + apply I0. apply R1 in Hy. tauto.
    + subst. auto.
    + apply L1 in Hx. apply R1 in Hy. lra.
  - intros v Hv. apply in_app_or in Hv as [Hv|Hv]; [apply A2 in Hv as [->|Hv]; auto; right; apply L1; auto|apply B2 in Hv as [->|Hv]; auto; right; apply R1; auto].
  - exists pp. split; [apply in_or_app; right; rewrite B3; left; auto|auto].
  - rewrite A3. cbn [app]. eauto.
Qed.

(** The hull of points that are not all on one vertical line. *)
Lemma quick_nodup (so : list pt -> list pt) (pts h : list pt) : reorders so -> (exists a b, In a pts /\ In b pts /\ vx a <> vx b) -> quick_hull so pts = Ok h ->
  NoDup h /\ (forall v, In v h -> In v pts) /\ (exists l t, h = l :: t /\ leftmost pts l) /\ (spread pts -> spread h).
Proof.
  intros Hso (a & b & Ha & Hb & Hab) EH. assert (Hne : pts <> []) by (intros ->; destruct Ha).
  destruct (quick_shape so pts Hne) as (l & r & up & lo & Hl & Hr & Hup & Hlo & N1 & N2 & EQ & _). rewrite EQ in EH. clear EQ.
  assert (Hw : vx l < vx r). { destruct Hl as [_ HL], Hr as [_ HR]. pose proof (HL a Ha). pose proof (HL b Hb). pose proof (HR a Ha). pose proof (HR b Hb). lra. }
  assert (Hlr : l <> r) by (intros ->; lra).
  assert (Hrl : forall q, orient r l q = - orient l r q) by (intro q; ug; ring).
  assert (P : forall s x y h0, NoDup s -> (forall v, In v s -> 0 <= orient x y v) -> ~ In x s -> ~ In y s -> x <> y -> half so s x y = Ok h0 ->
    NoDup h0 /\ (forall v, In v h0 -> v = x \/ In v s) /\ (exists t, h0 = x :: t) /\ (forall q, In q s -> 0 < orient x y q -> exists v, In v h0 /\ 0 < orient x y v)).
  { intros s x y h0 HN H0 Ix Iy Ixy. unfold half. destruct s as [|z s]; [intro X; injection X as <-; split; [constructor; [intros []|constructor]|]; split; [intros v [<-|[]]; auto|]; split; [eauto|intros q []]|].
    set (s' := z :: s) in *. intro X. assert (PM := Hso s').
    destruct (part_nodup _ _ _ _ _ X) as (B1 & B2 & (pp & Bp & Bi & Bf) & B3).
    - apply perm_nonempty; auto. discriminate.
    - eapply Permutation_NoDup; eauto.
    - intros q Hq. apply H0. eapply Permutation_in; [symmetry; apply PM|auto].
    - intro Z. apply Ix. eapply Permutation_in; [symmetry; apply PM|auto].
    - intro Z. apply Iy. eapply Permutation_in; [symmetry; apply PM|auto].
    - auto.
    - split; auto. split; [intros v Hv; apply B2 in Hv as [->|Hv]; auto; right; eapply Permutation_in; [symmetry; apply PM|auto]|]. split; auto.
      intros q Hq Ho. exists pp. split; auto. specialize (Bf q (Permutation_in _ PM Hq)). lra. }
  destruct (half so up l r) as [h1|] eqn:E1; [|discriminate]. cbn [bind] in EH. destruct (half so lo r l) as [h2|] eqn:E2; [|discriminate]. cbn [bind] in EH. injection EH as <-.
  destruct (P up l r h1) as (A1 & A2 & (t1 & A3) & A4); auto.
  { intros v Hv. apply Hup in Hv. lra. } { intro X. apply Hup in X. rewrite orient_self1 in X. lra. } { intro X. apply Hup in X. rewrite orient_self in X. lra. }
  destruct (P lo r l h2) as (B1 & B2 & (t2 & B3) & B4); auto.
  { intros v Hv. apply Hlo in Hv. rewrite Hrl. lra. } { intro X. apply Hlo in X. tauto. } { intro X. apply Hlo in X. tauto. }
  assert (Hl1 : In l pts) by apply Hl. assert (Hr1 : In r pts) by apply Hr.
  split; [|split; [|split]].
  - apply NoDup_app_iff. split; auto. split; auto. intros x Hx Hy. apply A2 in Hx. apply B2 in Hy. destruct Hx as [->|Hx], Hy as [Hy|Hy]; auto.
    + apply Hlo in Hy. tauto.
    + subst. apply Hup in Hx. rewrite orient_self in Hx. lra.
    + apply Hup in Hx. apply Hlo in Hy. lra.
  - intros v Hv. apply in_app_or in Hv as [Hv|Hv]; [apply A2 in Hv as [->|Hv]; auto; apply Hup; auto|apply B2 in Hv as [->|Hv]; auto; apply Hlo; auto].
  - exists l, (t1 ++ h2). rewrite A3. split; auto.
  - intros (x & y & z & Hx & Hy & Hz & O).
    assert (X : exists q, In q pts /\ orient l r q <> 0).
    { destruct (Req_dec (orient l r x) 0) as [X|X]; [|eauto]. destruct (Req_dec (orient l r y) 0) as [Y|Y]; [|eauto]. destruct (Req_dec (orient l r z) 0) as [Z|Z]; [|eauto].
      exfalso. apply O. assert (I : (vx r - vx l) * orient x y z = (vx y - vx x) * (orient l r z - orient l r x) - (vx z - vx x) * (orient l r y - orient l r x)) by (ug; ring).
      rewrite X, Y, Z in I. apply (Rmult_eq_reg_l (vx r - vx l)); lra. }
    destruct X as (q & Hq & Oq). assert (Il : In l (h1 ++ h2)) by (rewrite A3; left; auto). assert (Ir : In r (h1 ++ h2)) by (apply in_or_app; right; rewrite B3; left; auto).
    destruct (Rlt_le_dec 0 (orient l r q)) as [K|K].
    + destruct (A4 q) as (v & Hv & Ov); [apply Hup; auto|auto|]. exists l, r, v. split; auto. split; auto. split; [apply in_or_app; auto|lra].
    + destruct (B4 q) as (v & Hv & Ov); [apply Hlo; repeat split; auto; intros ->; apply Oq; [apply orient_self1|apply orient_self]|rewrite Hrl; lra|].
      exists r, l, v. split; auto. split; auto. split; [apply in_or_app; auto|lra].
Qed.
