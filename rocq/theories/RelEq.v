(** * Polygon equality only compares vertices: two number systems that agree on
      vertex equality agree on polygon equality *)
From Coq Require Import ZArith List Bool Reals Lra Lia Floats.
From Verif Require Import Num NumFloat Vec Seq Polygon RBase SpecGeom OrdLaws FloatFacts FloatFacts2 FloatExact FloatErr RelPoly.
Import ListNotations.

Section Rel.
  Context {T1 T2 : Type} {N1 : Num T1} {N2 : Num T2} (R : vec T1 -> vec T2 -> Prop).
  Hypothesis He : forall a b a' b', R a a' -> R b b' -> vec_eqb a b = vec_eqb a' b'.
  Hypothesis Hn : forall a b a' b', R a a' -> R b b' -> vec_neb a b = vec_neb a' b'.
  Definition r3 (t : vec T1 * vec T1 * vec T1) (t' : vec T2 * vec T2 * vec T2) : Prop := R (fst (fst t)) (fst (fst t')) /\ R (snd (fst t)) (snd (fst t')) /\ R (snd t) (snd t').
  Definition rt (t : @tgram T1) (t' : @tgram T2) : Prop := r3 (fst t) (fst t') /\ snd t = snd t'.
  Lemma e_tgram s s' t t' : rt s s' -> rt t t' -> tgram_eqb s t = tgram_eqb s' t'.
  Proof using He.
    destruct s as [[[a b] c] i], s' as [[[a' b'] c'] i'], t as [[[x y] z] k], t' as [[[x' y'] z'] k']. intros [(A & B & C) I] [(X & Y & Z) K]. cbn in *. subst.
    rewrite (He a x a' x'), (He b y b' y'), (He c z c' z'); auto.
  Qed.
  Lemma e_mem t t' s s' : rt t t' -> Forall2 rt s s' -> tg_mem t s = tg_mem t' s'.
  Proof using He. intros H F. unfold tg_mem. eapply F2_existsb; [|exact F]. intros. apply e_tgram; auto. Qed.
  Lemma e_fresh n : forall t t' s s', rt t t' -> Forall2 rt s s' -> rt (tg_fresh n t s) (tg_fresh n t' s').
  Proof using He.
    induction n as [|n IH]; intros t t' s s' H F; auto. cbn [tg_fresh]. rewrite (e_mem t t' s s' H F). destruct (tg_mem t' s'); auto.
    destruct t as [[[a b] c] i], t' as [[[a' b'] c'] i']. destruct H as [H E]. cbn in E. subst. apply IH; auto. split; auto.
  Qed.
  Lemma e_add s s' x x' : Forall2 rt s s' -> r3 x x' -> Forall2 rt (tg_add s x) (tg_add s' x').
  Proof using He.
    intros F H. destruct x as [[a b] c], x' as [[a' b'] c']. unfold tg_add. rewrite (F2_length rt _ _ F). constructor; auto. apply e_fresh; auto. split; auto.
  Qed.
  Lemma e_from l l' : Forall2 R l l' -> forall a b a' b', R a a' -> R b b' -> Forall2 r3 (trigrams_from a b l) (trigrams_from a' b' l').
  Proof. induction 1; intros a b a' b' A B; cbn; constructor; auto. repeat split; auto. Qed.
  Lemma e_trigrams l l' : Forall2 R l l' -> rres (Forall2 r3) (trigrams l) (trigrams l').
  Proof.
    intro F. unfold trigrams. destruct F as [|x x' l l' H F]; [constructor|].
    eapply rres_bind; [apply F2_get; constructor; eauto|]. intros y y' Y. eapply rres_bind; [apply F2_get; constructor; eauto|]. intros z z' Z. apply e_from; auto.
  Qed.
  Lemma e_match s s' : Forall2 rt s s' -> forall ts ts', Forall2 r3 ts ts' -> forall o o', Forall2 rt o o' -> ropt (Forall2 rt) (match_edges s o ts) (match_edges s' o' ts').
  Proof using He.
    intro F. induction 1 as [|x x' ts ts' H Ft IH]; intros o o' Fo; [exact Fo|]. destruct x as [[a b] c], x' as [[a' b'] c']. cbn [match_edges]. rewrite (F2_length rt _ _ Fo).
    assert (K : rt (tg_fresh (S (length o')) (a, b, c, 0%nat) o) (tg_fresh (S (length o')) (a', b', c', 0%nat) o')) by (apply e_fresh; auto; split; auto).
    rewrite (e_mem _ _ s s' K F). destruct (tg_mem _ s'); [|exact I]. apply IH. constructor; auto.
  Qed.
  Lemma e_set s s' t t' : Forall2 rt s s' -> Forall2 rt t t' -> set_eqb s t = set_eqb s' t'.
  Proof using He.
    intros F G. unfold set_eqb. rewrite (F2_length rt _ _ F), (F2_length rt _ _ G). f_equal. eapply F2_forallb; [|exact F]. intros. apply e_mem; auto.
  Qed.
  Lemma e_combine l l' : Forall2 R l l' -> forall m m', Forall2 R m m' ->
    forallb (fun ab => negb (vec_neb (fst ab) (snd ab))) (combine l m) = forallb (fun ab => negb (vec_neb (fst ab) (snd ab))) (combine l' m').
  Proof using Hn. induction 1 as [|x x' l l' H F IH]; intros m m' G; auto. destruct G as [|y y' m m' Y G]; auto. cbn. rewrite (Hn x y x' y'); auto. f_equal. apply IH; auto. Qed.
  Theorem e_poly_eqb l l' m m' : Forall2 R l l' -> Forall2 R m m' -> poly_eqb_verts l m = poly_eqb_verts l' m'.
  Proof using He Hn.
    intros F G. unfold poly_eqb_verts. rewrite (F2_length R _ _ F), (F2_length R _ _ G). destruct (negb _); auto. rewrite (e_combine l l' F m m' G). destruct (forallb _ _); auto.
    apply rres_eq. eapply rres_bind; [apply e_trigrams; exact F|]. intros st st' Fs. cbv zeta.
    assert (Fe : Forall2 rt (fold_left tg_add st []) (fold_left tg_add st' [])).
    { eapply (F2_fold r3 (Forall2 rt)); [|exact Fs|constructor]. intros. apply e_add; auto. }
    revert Fe. generalize (fold_left tg_add st []) (fold_left tg_add st' []). intros e e' Fe.
    eapply rres_bind; [apply e_trigrams; exact G|]. intros ot ot' Fo. apply rres_eq.
    assert (K : forall ts ts', Forall2 r3 ts ts' -> match match_edges e [] ts with Some oe => set_eqb e oe | None => false end = match match_edges e' [] ts' with Some oe => set_eqb e' oe | None => false end).
    { intros ts ts' Ft. pose proof (e_match e e' Fe ts ts' Ft [] [] ltac:(constructor)) as M. destruct (match_edges e [] ts), (match_edges e' [] ts'); cbn in M; try contradiction; auto. apply e_set; auto. }
    rewrite (K _ _ Fo). destruct (match match_edges e' [] ot' with Some oe => set_eqb e' oe | None => false end); auto.
    assert (Fr : Forall2 r3 (map (fun '(a, b, c) => (c, b, a)) ot) (map (fun '(a, b, c) => (c, b, a)) ot')).
    { clear - Fo. induction Fo as [|[[a b] c] [[a' b'] c'] ot ot' (A & B & C)]; cbn; constructor; auto. repeat split; auto. }
    specialize (K _ _ Fr). destruct (match_edges e [] _), (match_edges e' [] _); congruence.
  Qed.
End Rel.
