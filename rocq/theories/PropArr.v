(** * C07 (positive part) and C85: clamping and normalizing, one vector or arrays *)
From Coq Require Import ZArith List Bool Reals Lra Lia.
From Verif Require Import Num Vec Seq SpecGeom RBase VecFacts VecFacts2 PropVec.
Import ListNotations.
Local Open Scope R_scope.

(** Bounds as documented: not negative and in order. *)
Definition good_bounds (lo hi : option R) : Prop :=
  (forall a, lo = Some a -> 0 <= a) /\ (forall b, hi = Some b -> 0 <= b) /\ (forall a b, lo = Some a -> hi = Some b -> a <= b).

(** The full claim fails (C07_clamped_direction_refuted) only for negative
    bounds; with good bounds no vector is reversed. *)
Theorem C07_clamped_direction_partial : forall (E : R) (v : pt) (lo hi : option R), 0 <= E -> good_bounds lo hi ->
  exists w k, clamped E v lo hi = Ok w /\ 0 <= k /\ w = pscale k v.
Proof.
  intros E v lo hi HE (B1 & B2 & B3). destruct (Rle_lt_dec (norm v) E) as [H|H].
  - destruct (C06_clamped_small E v lo hi H B3) as (w & Hw & _ & [-> | ->]).
    + exists v, 1. split; [exact Hw|]. split; [lra|]. destruct v as [x y]. unfold pscale. cbn [vx vy]. vext; ring.
    + exists porigin, 0. split; [exact Hw|]. split; [lra|]. unfold pscale, porigin. vext; ring.
  - destruct (C06_clamped E v lo hi HE H B1 B2 B3) as (w & k & H1 & H2 & H3 & _). exists w, k. auto.
Qed.
Print Assumptions C07_clamped_direction_partial.

Lemma mapM_F2 {X Y} (f : X -> res Y) (Q : X -> Y -> Prop) l : (forall x, In x l -> exists y, f x = Ok y /\ Q x y) ->
  exists l', mapM f l = Ok l' /\ Forall2 Q l l'.
Proof.
  induction l as [|a l IH]; intros H; cbn [mapM].
  - exists []. auto.
  - destruct (H a (or_introl eq_refl)) as (y & -> & Hy). destruct IH as (l' & -> & Hl); [intros; apply H; right; auto|].
    cbn [bind]. exists (y :: l'). auto.
Qed.
Lemma mapM_err {X Y} (f : X -> res Y) l e : mapM f l = Err e -> exists x, In x l /\ f x = Err e.
Proof.
  induction l as [|a l IH]; cbn [mapM]; [discriminate|]. destruct (f a) as [y|e'] eqn:Ef; cbn [bind].
  - destruct (mapM f l); cbn [bind]; [discriminate|]. intro H. destruct (IH H) as (x & Hx & Hf). exists x. split; [right|]; auto.
  - intro H. exists a. split; [left; auto|]. congruence.
Qed.

(** Element by element, same length and order. *)
Theorem C85_normalized : forall (E : R) (l : list pt), 0 <= E ->
  exists l', arr_normalized E l = Ok l' /\
    Forall2 (fun v u => norm v <= E /\ u = porigin \/ E < norm v /\ norm u = 1 /\ exists k, 0 < k /\ u = pscale k v) l l'.
Proof.
  intros E l HE. apply mapM_F2. intros v _. destruct (C05_normalized E v HE) as [H1 H2].
  destruct (Rle_lt_dec (norm v) E) as [H|H]; [exists porigin; auto|].
  destruct (H2 H) as (u & k & Hu & Hn & Hk & HE'). exists u. split; [exact Hu|]. right. split; [exact H|]. split; [exact Hn|]. exists k. auto.
Qed.
Print Assumptions C85_normalized.

Theorem C85_clamped : forall (E : R) (l : list pt) (lo hi : option R), 0 <= E -> good_bounds lo hi ->
  exists l', arr_clamped E l lo hi = Ok l' /\
    Forall2 (fun v w => (exists k, 0 <= k /\ w = pscale k v) /\
      (norm v <= E -> w = v \/ w = porigin) /\
      (E < norm v -> (forall a, lo = Some a -> a <= norm w) /\ (forall b, hi = Some b -> norm w <= b) /\
         ((forall a, lo = Some a -> a <= norm v) -> (forall b, hi = Some b -> norm v <= b) -> w = v))) l l'.
Proof.
  intros E l lo hi HE HB. pose proof HB as (B1 & B2 & B3). unfold arr_clamped.
  assert (HN : match lo with Some a => (a <? n0)%num | None => false end = false).
  { destruct lo as [a|]; auto. apply Rltb_false. exact (B1 a eq_refl). }
  rewrite HN. apply mapM_F2. intros v _. destruct (C07_clamped_direction_partial E v lo hi HE HB) as (w & k & Hw & Hk & Hs).
  exists w. split; [exact Hw|]. split; [exists k; auto|]. split.
  - intro H. destruct (C06_clamped_small E v lo hi H B3) as (w' & Hw' & _ & K). rewrite Hw in Hw'. injection Hw' as <-. exact K.
  - intro H. destruct (C06_clamped E v lo hi HE H B1 B2 B3) as (w' & k' & Hw' & _ & _ & K). rewrite Hw in Hw'. injection Hw' as <-. exact K.
Qed.
Print Assumptions C85_clamped.

(** Bad bounds: a negative minimum always raises, a maximum below the minimum
    raises unless the array is empty; nothing else is rejected. *)
Theorem C85_rejects : forall (E : R) (l : list pt) (lo hi : option R), 0 <= E ->
  (arr_clamped E l lo hi = Err ValueError <->
   (exists a, lo = Some a /\ a < 0) \/ (l <> [] /\ exists a b, lo = Some a /\ hi = Some b /\ b < a)) /\
  (arr_clamped E l lo hi <> Err ValueError -> exists l', arr_clamped E l lo hi = Ok l' /\ length l' = length l).
Proof.
  intros E l lo hi HE. unfold arr_clamped.
  assert (HN : match lo with Some a => (a <? n0)%num | None => false end = true <-> exists a, lo = Some a /\ a < 0).
  { destruct lo as [a|]; [|split; [discriminate|intros (a & K & _); discriminate]]. change (Rltb a 0 = true <-> (exists a0, Some a = Some a0 /\ a0 < 0)). rewrite Rltb_true. split.
    - intro H. exists a. auto. - intros (b & [= <-] & H). auto. }
  destruct (match lo with Some a => (a <? n0)%num | None => false end).
  - split; [|intro K; contradiction]. split; [intros _; left; apply HN; auto|auto].
  - assert (HN' : ~ exists a, lo = Some a /\ a < 0) by (intro K; apply HN in K; discriminate). split.
    + split.
      * intro H. right. destruct (mapM_err _ _ _ H) as (v & Hv & Hf). split; [intros ->; destruct Hv|]. apply (C06_clamped_bad_bounds E v lo hi). exact Hf.
      * intros [K|[Hl K]]; [contradiction|]. destruct l as [|v l]; [contradiction|]. cbn [mapM]. 
        apply (C06_clamped_bad_bounds E v lo hi) in K. rewrite K. reflexivity.
    + intro H. destruct (mapM (fun v => clamped E v lo hi) l) as [l'|e] eqn:EM.
      * exists l'. split; auto. clear - EM. revert l' EM. induction l as [|a l IH]; cbn [mapM]; intros l' EM; [injection EM as <-; auto|].
        destruct (clamped E a lo hi); cbn [bind] in EM; [|discriminate]. destruct (mapM _ l); cbn [bind] in EM; [|discriminate]. injection EM as <-. cbn. f_equal. auto.
      * exfalso. apply H. destruct (mapM_err _ _ _ EM) as (v & _ & Hf). f_equal. clear - Hf HE.
        assert (HS : forall len, exists w, scaled_to E v len = Ok w).
        { intro len. destruct (C06_scaled_to E len v HE) as [K1 K2]. destruct (Rle_lt_dec (norm v) E) as [K|K]; [exists porigin; auto|].
          destruct (K2 K) as (w & Hw & _). exists w. exact Hw. }
        assert (HP : forall x : R, pypow2 x = Ok (x * x)) by (intro; unfold pypow2; rnum; reflexivity).
        revert Hf. unfold clamped. destruct (match lo, hi with Some a, Some b => _ | _, _ => false end); [congruence|].
        destruct lo as [a|], hi as [b|]; rewrite ?HP; cbn [bind];
          repeat match goal with |- context [if ?c then _ else _] => destruct c | |- scaled_to _ _ ?x = _ -> _ => destruct (HS x) as [? ->] end; discriminate.
Qed.
Print Assumptions C85_rejects.

(** The forms that change the array: as above, and when they raise the array
    keeps its elements. *)
Theorem C85_in_place : forall (E : R) (l : list pt) (lo hi : option R), 0 <= E ->
  Forall2 (fun v u => norm v <= E /\ u = porigin \/ E < norm v /\ norm u = 1 /\ exists k, 0 < k /\ u = pscale k v)
    l (arr_step l (OpNormalize E)) /\
  (good_bounds lo hi ->
   Forall2 (fun v w => (exists k, 0 <= k /\ w = pscale k v) /\
      (norm v <= E -> w = v \/ w = porigin) /\
      (E < norm v -> (forall a, lo = Some a -> a <= norm w) /\ (forall b, hi = Some b -> norm w <= b) /\
         ((forall a, lo = Some a -> a <= norm v) -> (forall b, hi = Some b -> norm v <= b) -> w = v)))
     l (arr_step l (OpClamp E lo hi))) /\
  ((exists a, lo = Some a /\ a < 0) \/ (l <> [] /\ exists a b, lo = Some a /\ hi = Some b /\ b < a) ->
   arr_exec l (OpClamp E lo hi) = Err ValueError /\ arr_step l (OpClamp E lo hi) = l).
Proof.
  intros E l lo hi HE. unfold arr_step. cbn [arr_exec]. split; [|split].
  - destruct (C85_normalized E l HE) as (l' & -> & H). exact H.
  - intro HB. destruct (C85_clamped E l lo hi HE HB) as (l' & -> & H). exact H.
  - intro H. rewrite (proj2 (proj1 (C85_rejects E l lo hi HE)) H). auto.
Qed.
Print Assumptions C85_in_place.

(** Only the minimum is checked: a negative maximum reverses vectors. *)
Theorem C85_negative_maximum_refuted : exists (E : R) (l l' : list pt) (hi : R) (v w : pt) (k : R),
  0 < E /\ arr_clamped E l None (Some hi) = Ok l' /\ In (v, w) (combine l l') /\ E < norm v /\ k < 0 /\ w = pscale k v.
Proof.
  exists (/ 100000), [mkV 3 4], [pscale (-1 / 5) (mkV 3 4)], (-1), (mkV 3 4), (pscale (-1 / 5) (mkV 3 4)), (-1/5).
  rewrite norm_34. split; [lra|]. split; [|split; [left; reflexivity|split; [lra|split; [lra|reflexivity]]]].
  unfold arr_clamped. cbn [mapM]. unfold clamped, pypow2. rnum. cbn [bind andb].
  destruct (Rltb_spec (-1 * -1) (length2 (mkV 3 4))) as [_|H].
  - destruct (C06_scaled_to (/100000) (-1) (mkV 3 4)) as [_ H]; [lra|].
    destruct H as (w & H1 & _ & H2); [rewrite norm_34; lra|].
    rewrite H1, H2, norm_34. reflexivity.
  - rewrite length2_norm, norm_34 in H. lra.
Qed.
Print Assumptions C85_negative_maximum_refuted.
Example C85_ex : good_bounds (Some 1) (Some 2) /\ good_bounds None (Some 3) /\ 0 <= / 100000 /\ / 100000 < norm (mkV 3 4).
Proof.
  split; [|split].
  - repeat split; intros; try (injection H as <-); try (injection H0 as <-); lra.
  - repeat split; intros; try discriminate; injection H as <-; lra.
  - split; [lra|]. rewrite norm_34. lra.
Qed.
