(** * Lemmas about the hull algorithm over the reals: the partition *)
From Coq Require Import ZArith List Bool Reals Lra Lia Psatz Permutation Sorted.
From Verif Require Import Num Vec Affine Box Seq Polygon Hull SpecGeom SpecHull RBase VecFacts2 NumHom SortFacts HullFacts.
Import ListNotations.
Local Open Scope R_scope.

(** ** Where hull vertices come from, for any number type *)
Section Source.
  Context {T : Type} {N : Num T}.
  Notation V := (vec T).
  Definition from_pts (pts : list V) (v : V) : Prop := In v pts \/ exists p, In p pts /\ v = vec2_of p.
  Lemma from_sub pts pts' v : (forall p, In p pts' -> In p pts) -> from_pts pts' v -> from_pts pts v.
  Proof. intros H [A|(p & A & B)]; [left; auto|right; exists p; auto]. Qed.
  Lemma far_in pts p0 p1 pp : find_furthest pts p0 p1 = Some pp -> In pp pts.
  Proof.
    unfold find_furthest. set (dx := nsub _ _). set (dy := nsub _ _).
    assert (G : forall l st, (forall v, snd st = Some v -> In v pts) -> (forall v, In v l -> In v pts) -> forall v, snd (fold_left (far_step p0 dx dy) l st) = Some v -> In v pts).
    { induction l as [|a l IH]; intros st H1 H2 v; cbn [fold_left]; auto. apply IH; [|intros; apply H2; right; auto].
      intros w. unfold far_step. destruct (nltb _ _); auto. cbn [snd]. intros X. inversion X; subst. apply H2. left; auto. }
    apply G; auto. discriminate.
  Qed.
  Lemma part_in pts p0 p1 pp l r : partition_pts pts p0 p1 pp = Ok (l, r) -> forall v, In v l \/ In v r -> In v pts.
  Proof.
    unfold partition_pts. destruct (nfalsy _); [intros H; inversion H; subst; intros v [[]|[]]|].
    destruct (pydiv _ _) as [iv|]; [|discriminate]. cbn [bind]. intros H.
    set (g := part_step _ _ _ _ _ _ _) in H.
    assert (G : forall m st, (forall v, In v (fst st) \/ In v (snd st) -> In v pts) -> (forall v, In v m -> In v pts) -> forall v, In v (fst (fold_left g m st)) \/ In v (snd (fold_left g m st)) -> In v pts).
    { induction m as [|a m IH]; intros st H1 H2 v; cbn [fold_left]; auto. apply IH; [|intros; apply H2; right; auto].
      intros w. unfold g, part_step. destruct st as [s1 s2]. cbn [fst snd] in *. assert (In a pts) by (apply H2; left; auto).
      destruct (nltb _ _); [|destruct (nltb _ _)]; cbn [fst snd]; auto; intros [X|X]; auto; apply in_app_or in X; destruct X as [X|[<-|[]]]; auto. }
    inversion H as [E]. specialize (G pts ([], [])). rewrite E in G. cbn [fst snd] in G. apply G; auto. intros v [[]|[]].
  Qed.
  Lemma pop_in (p : V) : forall s v, In v (scan_pop p s) -> In v s.
  Proof. induction s as [|b s IH]; auto. destruct s as [|a r]; auto. intros v. cbn [scan_pop]. destruct (nleb _ _); auto. intro H. right. auto. Qed.
  Lemma sort_src pts p0 p1 v : In v (ahull_sort pts p0 p1) -> v = p0 \/ v = p1 \/ In v pts.
  Proof.
    unfold ahull_sort. rewrite <- in_rev. set (srt := sort_by _ pts). intros H.
    assert (G : forall l s w, In w (fold_left scan_step l s) -> In w l \/ In w s).
    { induction l as [|a l IH]; intros s w; cbn [fold_left]; auto. intros X. destruct (IH _ _ X) as [Y|[<-|Y]]; [left; right; auto|left; left; auto|]. right. apply (pop_in a); auto. }
    assert (H' : In v (fold_left scan_step (srt ++ [p1]) [p0])). { destruct (fold_left scan_step (srt ++ [p1]) [p0]); cbn in H; [destruct H|right; auto]. }
    apply G in H'. destruct H' as [X|[X|[]]]; auto. apply in_app_or in X. destruct X as [X|[X|[]]]; auto. unfold srt in X. apply sort_in in X. auto.
  Qed.
  Lemma pop_last (p o : V) : forall s r, s = r ++ [o] -> exists r', scan_pop p s = r' ++ [o].
  Proof.
    induction s as [|b s IH]; intros r E; [destruct r; discriminate|]. destruct s as [|a s]; [exists r; cbn; auto|].
    cbn [scan_pop]. destruct (nleb _ _); [|eauto]. destruct r as [|x r]; [discriminate|]. cbn [app] in E. assert (E2 : a :: s = r ++ [o]) by congruence. eapply IH; eauto.
  Qed.
  Lemma sort_head pts p0 p1 : exists r, ahull_sort pts p0 p1 = p0 :: r.
  Proof.
    unfold ahull_sort. set (srt := sort_by _ pts). rewrite fold_left_app. cbn [fold_left].
    assert (G : forall l s r, s = r ++ [p0] -> exists r', fold_left scan_step l s = r' ++ [p0]).
    { induction l as [|a l IH]; intros s r E; cbn [fold_left]; eauto. unfold scan_step at 2. destruct (pop_last a p0 s r E) as (r' & ->). apply (IH _ (a :: r')). auto. }
    destruct (G srt [p0] []) as (r' & E); auto. rewrite E. unfold scan_step. cbn [tl]. destruct (pop_last p1 p0 _ r' eq_refl) as (r2 & ->). rewrite rev_app_distr. cbn. eauto.
  Qed.
  Lemma hull_src : forall fuel pts p0 p1 h, ahull_partition fuel pts p0 p1 = Ok h -> forall v, In v h -> v = p0 \/ v = p1 \/ from_pts pts v.
  Proof.
    induction fuel as [|f IH]; intros pts p0 p1 h; cbn [ahull_partition]; [discriminate|].
    destruct (find_furthest pts p0 p1) as [pp0|] eqn:EF; [|discriminate]. set (pp := vec2_of pp0).
    assert (Hpp : from_pts pts pp) by (right; exists pp0; split; auto; apply far_in in EF; auto).
    destruct (partition_pts pts p0 p1 pp) as [[l r]|] eqn:EP; [|discriminate]. cbn [bind].
    assert (Hl : forall v, In v l -> In v pts) by (intros; eapply part_in; eauto). assert (Hr : forall v, In v r -> In v pts) by (intros; eapply part_in; eauto).
    set (m := (_ * 4)%nat).
    assert (G : forall s a b hh, (forall v, In v s -> In v pts) -> (if Nat.leb (length s) 1 then Ok (a :: s) else if Nat.leb (length s) m then ahull_partition f s a b else Ok (ahull_sort s a b)) = Ok hh ->
      forall v, In v hh -> v = a \/ v = b \/ from_pts pts v).
    { intros s a b hh Hs. destruct (Nat.leb (length s) 1); [|destruct (Nat.leb (length s) m)].
      - intros E. inversion E; subst. intros v [<-|Hv]; auto. right. right. left. auto.
      - intros E v Hv. destruct (IH _ _ _ _ E v Hv) as [X|[X|X]]; auto. right. right. eapply from_sub; eauto.
      - intros E. inversion E; subst. intros v Hv. apply sort_src in Hv. destruct Hv as [X|[X|X]]; auto. right. right. left. auto. }
    destruct (if Nat.leb (length l) 1 then _ else _) as [h1|] eqn:E1; [|discriminate]. cbn [bind].
    destruct (if Nat.leb (length r) 1 then _ else _) as [h2|] eqn:E2; [|discriminate]. cbn [bind]. intros H. inversion H; subst. intros v Hv. apply in_app_or in Hv. destruct Hv as [Hv|Hv].
    - destruct (G _ _ _ _ Hl E1 v Hv) as [X|[->|X]]; auto.
    - destruct (G _ _ _ _ Hr E2 v Hv) as [->|[X|X]]; auto.
  Qed.
  Lemma lr_in (all : list V) : forall pts st, In (fst st) all -> In (snd st) all -> (forall p, In p pts -> In p all) -> In (fst (fold_left lr_step pts st)) all /\ In (snd (fold_left lr_step pts st)) all.
  Proof.
    induction pts as [|a pts IH]; intros st H1 H2 H; cbn [fold_left]; auto. assert (In a all) by (apply H; left; auto). destruct st as [l r]. cbn [fst snd] in *.
    apply IH; [| |intros; apply H; right; auto]; unfold lr_step; destruct (nltb _ _); auto; destruct (nltb _ _); auto.
  Qed.
  Lemma set_add_in s (p v : V) : In v (set_add s p) -> v = p \/ In v s.
  Proof. unfold set_add. destruct (set_mem p s); auto. intros H. apply in_app_or in H. destruct H as [H|[H|[]]]; auto. Qed.
  Lemma ul_in (all : list V) l r : forall pts st, (forall v, In v (fst st) \/ In v (snd st) -> In v all) -> (forall p, In p pts -> In p all) ->
    let st' := fold_left (fun st p => let '(up, lo) := st in
      if nltb n0 (nsub (nmul (nsub (vx r) (vx l)) (nsub (vy p) (vy l))) (nmul (nsub (vx p) (vx l)) (nsub (vy r) (vy l)))) then (set_add up p, lo) else (up, set_add lo p)) pts st in
    forall v, In v (fst st') \/ In v (snd st') -> In v all.
  Proof.
    induction pts as [|a pts IH]; intros st H1 H; cbn [fold_left]; auto. assert (Ha : In a all) by (apply H; left; auto).
    apply IH; [|intros; apply H; right; auto]. destruct st as [up lo]. cbn [fst snd] in *. intros v.
    destruct (nltb _ _); cbn [fst snd]; intros [X|X]; auto; apply set_add_in in X; destruct X as [->|X]; auto.
  Qed.
  Lemma quick_src (so : list V -> list V) pts h : reorders so -> quick_hull so pts = Ok h -> forall v, In v h -> from_pts pts v.
  Proof.
    intros Hso. unfold quick_hull. destruct pts as [|p pts]; [discriminate|]. set (all := p :: pts).
    destruct (fold_left lr_step all (p, p)) as [l r] eqn:ELR.
    destruct (lr_in all all (p, p)) as [Hl Hr]; try (left; reflexivity); auto. rewrite ELR in Hl, Hr. cbn [fst snd] in Hl, Hr.
    destruct (upper_lower all l r) as [up lo] eqn:EU. pose proof (ul_in all l r all ([], [])) as U. unfold upper_lower in EU. cbv zeta in EU, U. rewrite EU in U. cbn [fst snd] in U.
    assert (U' : forall v, In v up \/ In v lo -> In v all) by (apply U; auto; intros v [[]|[]]). clear U.
    set (up' := set_discard (set_discard up l) r). set (lo' := set_discard (set_discard lo l) r).
    assert (Hd : forall s v, In v (set_discard (set_discard s l) r) -> In v s) by (intros s v X; unfold set_discard in X; apply filter_In in X; destruct X as [X _]; apply filter_In in X; tauto).
    assert (G : forall s a b h, (forall v, In v s -> In v all) -> In a all -> In b all -> match s with [] => Ok [a] | _ => ahull_partition (S (length s)) (so s) a b end = Ok h -> forall v, In v h -> from_pts all v).
    { intros s a b hh Hs Ha Hb. destruct s as [|x s].
      - intros E. inversion E; subst. intros v [<-|[]]. left; auto.
      - intros E v Hv. destruct (hull_src _ _ _ _ _ E v Hv) as [->|[->|X]]; [left; auto|left; auto|]. eapply from_sub; [|exact X]. intros q Hq. apply Hs. eapply Permutation_in; [symmetry; apply Hso|auto]. }
    destruct (match up' with [] => _ | _ => _ end) as [h1|] eqn:E1; [|discriminate]. cbn [bind].
    destruct (match lo' with [] => _ | _ => _ end) as [h2|] eqn:E2; [|discriminate]. cbn [bind]. intros H. inversion H; subst. intros v Hv. apply in_app_or in Hv. destruct Hv as [Hv|Hv].
    - apply (G up' l r h1); auto.
    - apply (G lo' r l h2); auto.
  Qed.
End Source.

(** ** The partition step over the reals *)
Lemma far_spec (pts : list pt) p0 p1 : pts <> [] -> (forall q, In q pts -> 0 <= orient p0 p1 q) ->
  exists pp, find_furthest pts p0 p1 = Some pp /\ In pp pts /\ forall q, In q pts -> orient p0 p1 q <= orient p0 p1 pp.
Proof.
  intros Hne H0. unfold find_furthest. set (g := far_step _ _ _).
  assert (Hg : forall st p, g st p = if Rltb (fst st) (orient p0 p1 p) then (orient p0 p1 p, Some p) else st).
  { intros st p. unfold g, far_step. rnum. replace (orient p0 p1 p) with ((vx p1 - vx p0) * (vy p - vy p0) - (vx p - vx p0) * (vy p1 - vy p0)) by (ug; ring). auto. }
  assert (G : forall l st, (forall q, In q l -> 0 <= orient p0 p1 q) ->
    let st' := fold_left g l st in fst st <= fst st' /\ (forall q, In q l -> orient p0 p1 q <= fst st') /\ (st' = st \/ exists pp, st' = (orient p0 p1 pp, Some pp) /\ In pp l)).
  { induction l as [|a l IH]; intros st Hl; cbn [fold_left].
    - split; [lra|]. split; [intros q []|auto].
    - destruct (IH (g st a)) as (A & B & C); [intros; apply Hl; right; auto|]. cbv zeta in *. rewrite Hg in *.
      destruct (Rltb_spec (fst st) (orient p0 p1 a)) as [L|L]; cbn [fst] in A.
      + split; [lra|]. split; [intros q [<-|Hq]; auto|]. right. destruct C as [->|(pp & E & Hi)]; [exists a|exists pp]; split; auto; cbn; auto.
      + split; [lra|]. split; [intros q [<-|Hq]; auto; lra|]. destruct C as [->|(pp & E & Hi)]; auto. right. exists pp. split; auto. right; auto. }
  destruct (G pts (nlit (-1), None) H0) as (A & B & C). cbv zeta in *. destruct C as [C|(pp & C & Hi)].
  - exfalso. destruct pts as [|q pts]; [contradiction|]. specialize (B q (or_introl eq_refl)). specialize (H0 q (or_introl eq_refl)). rewrite C in B. cbn [fst] in B. revert B. rnum. lra.
  - exists pp. rewrite C. cbn [snd]. split; auto. split; auto. intros q Hq. specialize (B q Hq). rewrite C in B. exact B.
Qed.
Definition lefts (p0 pp : pt) (pts : list pt) : list pt := filter (fun q => Rltb 0 (orient p0 pp q)) pts.
Definition rights (p0 p1 pp : pt) (pts : list pt) : list pt := filter (fun q => negb (Rltb 0 (orient p0 pp q)) && Rltb 0 (orient pp p1 q)) pts.
Lemma sign_div (a b c : R) : 0 < c -> (0 < b <-> a < 0) -> Rltb (a * c) 0 = Rltb 0 b.
Proof.
  intros Hc H. destruct (Rltb_spec 0 b) as [L|L].
  - apply Rltb_true. apply H in L. assert (0 < - a * c) by (apply Rmult_lt_0_compat; lra). lra.
  - destruct (Rltb_spec (a * c) 0) as [X|X]; auto. exfalso. apply (Rle_not_lt _ _ L), H. apply Rnot_le_lt. intro Y. assert (0 <= a * c) by (apply Rmult_le_pos; lra). lra.
Qed.
Lemma part_spec (pts : list pt) p0 p1 pp : 0 < orient p0 p1 pp -> partition_pts pts p0 p1 pp = Ok (lefts p0 pp pts, rights p0 p1 pp pts).
Proof.
  intros HD. unfold partition_pts. rewrite !length2_R. unfold nfalsy. rnum.
  set (v0 := vsub p0 pp). set (v1 := vsub p1 pp).
  set (dn := (vx v0 * vx v0 + vy v0 * vy v0) * (vx v1 * vx v1 + vy v1 * vy v1) - dot v0 v1 * dot v0 v1).
  assert (Hdn : dn = orient p0 p1 pp * orient p0 p1 pp). { unfold dn, v0, v1, dot, vsub. rnum. ug. ring. }
  assert (Hp : 0 < dn) by (rewrite Hdn; apply Rmult_lt_0_compat; auto).
  destruct (Reqb_spec dn 0) as [E|_]; [lra|]. rewrite pydiv_R by lra. cbn [bind]. f_equal.
  set (g := part_step _ _ _ _ _ _ _).
  assert (Hg : forall st p, g st p = if Rltb 0 (orient p0 pp p) then (fst st ++ [p], snd st) else if Rltb 0 (orient pp p1 p) then (fst st, snd st ++ [p]) else st).
  { intros [s1 s2] p. unfold g, part_step. rnum. assert (Hi : 0 < 1 / dn) by (unfold Rdiv; rewrite Rmult_1_l; apply Rinv_0_lt_compat; auto).
    rewrite (sign_div _ (orient p0 pp p)), (sign_div _ (orient pp p1 p)); auto.
    - match goal with |- _ <-> ?a < 0 => assert (E : a = - (orient p0 p1 pp * orient pp p1 p)) by (unfold v0, v1, dot, vsub; rnum; ug; ring) end. rewrite E.
      split; intro X; [assert (0 < orient p0 p1 pp * orient pp p1 p) by (apply Rmult_lt_0_compat; auto); lra|].
      apply Rnot_le_lt. intro Y. assert (0 <= orient p0 p1 pp * - orient pp p1 p) by (apply Rmult_le_pos; lra). lra.
    - match goal with |- _ <-> ?a < 0 => assert (E : a = - (orient p0 p1 pp * orient p0 pp p)) by (unfold v0, v1, dot, vsub; rnum; ug; ring) end. rewrite E.
      split; intro X; [assert (0 < orient p0 p1 pp * orient p0 pp p) by (apply Rmult_lt_0_compat; auto); lra|].
      apply Rnot_le_lt. intro Y. assert (0 <= orient p0 p1 pp * - orient p0 pp p) by (apply Rmult_le_pos; lra). lra. }
  assert (G : forall l st, fold_left g l st = (fst st ++ lefts p0 pp l, snd st ++ rights p0 p1 pp l)).
  { induction l as [|a l IH]; intros st; cbn [fold_left].
    - unfold lefts, rights. cbn [filter]. rewrite !app_nil_r. destruct st; auto.
    - rewrite IH, Hg. unfold lefts, rights. cbn [filter]. destruct (Rltb 0 (orient p0 pp a)); cbn [negb andb fst snd]; [rewrite <- app_assoc; auto|].
      destruct (Rltb 0 (orient pp p1 a)); cbn [fst snd]; [rewrite <- app_assoc; auto|]. auto. }
  rewrite G. reflexivity.
Qed.
Lemma part_flat (pts : list pt) p0 p1 pp : orient p0 p1 pp = 0 -> partition_pts pts p0 p1 pp = Ok ([], []).
Proof.
  intros HD. unfold partition_pts. rewrite !length2_R. unfold nfalsy. rnum.
  match goal with |- (if Reqb ?d 0 then _ else _) = _ => assert (Hdn : d = 0) end.
  { transitivity (orient p0 p1 pp * orient p0 p1 pp); [unfold dot, vsub; rnum; ug; ring|rewrite HD; ring]. }
  rewrite Hdn. destruct (Reqb_spec 0 0); auto. contradiction.
Qed.
Lemma orient_self a b : orient a b b = 0. Proof. ug. ring. Qed.
Lemma orient_self1 a b : orient a b a = 0. Proof. ug. ring. Qed.
Lemma part_len p0 p1 pp : forall pts, In pp pts -> (length (lefts p0 pp pts) + length (rights p0 p1 pp pts) < length pts)%nat.
Proof.
  assert (G : forall pts, (length (lefts p0 pp pts) + length (rights p0 p1 pp pts) <= length pts)%nat).
  { unfold lefts, rights. induction pts as [|a l IH]; cbn [filter length]; auto. destruct (Rltb 0 (orient p0 pp a)); cbn [negb andb length]; [lia|]. destruct (Rltb 0 (orient pp p1 a)); cbn [length]; lia. }
  induction pts as [|a l IH]; [intros []|]. intros [->|H]; unfold lefts, rights in *; cbn [filter length].
  - rewrite orient_self, orient_self1. destruct (Rltb_spec 0 0) as [X|_]; [lra|]. cbn [negb andb]. specialize (G l). lia.
  - specialize (IH H). destruct (Rltb 0 (orient p0 pp a)); cbn [negb andb length]; [lia|]. destruct (Rltb 0 (orient pp p1 a)); cbn [length]; lia.
Qed.
Lemma lefts_in p0 pp pts q : In q (lefts p0 pp pts) <-> In q pts /\ 0 < orient p0 pp q.
Proof. unfold lefts. rewrite filter_In, Rltb_true. tauto. Qed.
Lemma rights_in p0 p1 pp pts q : In q (rights p0 p1 pp pts) <-> In q pts /\ orient p0 pp q <= 0 /\ 0 < orient pp p1 q.
Proof.
  unfold rights. rewrite filter_In, andb_true_iff, Rltb_true. destruct (Rltb_spec 0 (orient p0 pp q)); cbn [negb]; intuition (try lra; try discriminate).
Qed.
(** ** The calls of the sorted scan made by a run *)
Fixpoint scans {T} {N : Num T} (fuel : nat) (pts : list (vec T)) (p0 p1 : vec T) : list (list (vec T) * vec T * vec T) :=
  match fuel with
  | O => []
  | S f =>
      match find_furthest pts p0 p1 with
      | None => []
      | Some pp0 =>
          let pp := vec2_of pp0 in
          match partition_pts pts p0 p1 pp with
          | Err _ => []
          | Ok (l, r) =>
              let m := ((length pts - length l - length r) * 4)%nat in
              (if Nat.leb (length l) 1 then [] else if Nat.leb (length l) m then scans f l p0 pp else [(l, p0, pp)])
              ++ (if Nat.leb (length r) 1 then [] else if Nat.leb (length r) m then scans f r pp p1 else [(r, pp, p1)])
          end
      end
  end.
Lemma scans_few : forall fuel (pts : list pt) p0 p1, (length pts <= 5)%nat -> (forall q, In q pts -> 0 <= orient p0 p1 q) -> scans fuel pts p0 p1 = [].
Proof.
  induction fuel as [|f IH]; intros pts p0 p1 HL H0; cbn [scans]; auto. destruct pts as [|x pts']; [reflexivity|]. set (pts := x :: pts') in *.
  destruct (far_spec pts p0 p1) as (pp & -> & Hi & Hf); auto; [discriminate|]. rewrite vec2_of_R.
  destruct (Rle_lt_or_eq_dec 0 (orient p0 p1 pp)) as [D|D]; auto.
  - rewrite part_spec by auto. pose proof (part_len p0 p1 pp pts Hi) as L.
    rewrite !IH.
    + destruct (Nat.leb_spec (length (lefts p0 pp pts)) 1), (Nat.leb_spec (length (rights p0 p1 pp pts)) 1);
      repeat match goal with |- context [Nat.leb ?a ?b] => destruct (Nat.leb_spec a b); [|lia] end; auto.
    + lia.
    + intros q Hq. apply rights_in in Hq. lra.
    + lia.
    + intros q Hq. apply lefts_in in Hq. lra.
  - rewrite part_flat by auto. reflexivity.
Qed.
