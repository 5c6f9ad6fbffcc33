(** * Polygon equality *)
From Coq Require Import ZArith List Bool Lia Permutation Reals.
From Verif Require Import Num Vec Seq Polygon OrdLaws SpecBox SpecGeom BoxFacts VecFacts2 SpecCycle PolyCache2.
Import ListNotations.

(** ** Windows of three *)
Section Windows.
  Context {X : Type}.
  Fixpoint win (a b : X) (l : list X) : list (X * X * X) :=
    match l with [] => [] | c :: l' => (a, b, c) :: win b c l' end.
  Definition rev3 (t : X * X * X) : X * X * X := let '(a, b, c) := t in (c, b, a).
  (** Cyclic trigrams of a list of length at least 2: x, y are its last two. *)
  Definition trig (l : list X) : list (X * X * X) :=
    match rev l with y :: x :: _ => win x y l | _ => [] end.
  Lemma win_app l m : forall a b, win a b (l ++ m) = win a b l ++ match rev (a :: b :: l) with y :: x :: _ => win x y m | _ => [] end.
  Proof.
    induction l as [|c l IH]; intros a b; cbn [app win]; auto. rewrite IH. f_equal. f_equal. cbn [rev]. rewrite <- !app_assoc. cbn [app].
    destruct (rev l) as [|y [|x k]]; reflexivity.
  Qed.
  Lemma win_length l : forall a b, length (win a b l) = length l.
  Proof. induction l; intros; cbn; auto. Qed.
  Lemma trig_length l : (2 <= length l)%nat -> length (trig l) = length l.
  Proof.
    intro H. unfold trig. pose proof (rev_length l). destruct (rev l) as [|y [|x k]]; cbn in *; try lia. apply win_length.
  Qed.
  Lemma trig_rot1 a l : (1 <= length l)%nat -> Permutation (trig (a :: l)) (trig (l ++ [a])).
  Proof.
    intro H. unfold trig. rewrite rev_app_distr. cbn [rev app]. destruct (rev l) as [|y k] eqn:E.
    - apply (f_equal (@length X)) in E. rewrite rev_length in E. cbn in E. lia.
    - assert (El : l = rev k ++ [y]). { rewrite <- (rev_involutive l), E. reflexivity. }
      cbn [app]. destruct k as [|x k]; cbn [app].
      + subst l. cbn. apply perm_swap.
      + cbn [win]. rewrite win_app. cbn [rev]. rewrite E. cbn [app].
        change ((x, y, a) :: win y a l) with ([(x, y, a)] ++ win y a l). rewrite Permutation_app_comm. apply Permutation_app_head. cbn. auto.
  Qed.
  Lemma trig_rot a b : (2 <= length (a ++ b))%nat -> Permutation (trig (a ++ b)) (trig (b ++ a)).
  Proof.
    revert b. induction a as [|x a IH]; intros b H.
    - rewrite app_nil_r. auto.
    - cbn [app]. rewrite trig_rot1 by (cbn in H; lia). rewrite <- app_assoc. rewrite IH.
      + rewrite <- app_assoc. auto.
      + rewrite !app_length in *. cbn in *. lia.
  Qed.
  Lemma trig_rotated l m : (2 <= length l)%nat -> rotated l m -> Permutation (trig l) (trig m).
  Proof. intros H (a & b & -> & ->). apply trig_rot; auto. Qed.
  Lemma win_snoc3 k : forall y x (a b c : X), win y x (k ++ [c; b; a]) = win y x (k ++ [c; b]) ++ [(c, b, a)].
  Proof. induction k as [|z k IH]; intros; cbn [app win]; auto. f_equal. apply IH. Qed.
  Lemma win_rev l : forall a b, match rev (a :: b :: l) with y :: x :: r => win y x r | _ => [] end = rev (map rev3 (win a b l)).
  Proof.
    induction l as [|c l IH]; intros a b; auto. cbn [win map]. cbn [rev]. specialize (IH b c). cbn [rev] in IH. rewrite <- IH. clear IH.
    rewrite <- !app_assoc. cbn [app]. destruct (rev l) as [|y [|x k]]; cbn [app win rev3]; auto.
    apply win_snoc3.
  Qed.
  Lemma trig_rev l : (2 <= length l)%nat -> Permutation (trig (rev l)) (map rev3 (trig l)).
  Proof.
    intro H. destruct l as [|v0 [|v1 l]]; cbn in H; try lia.
    (* windows of l ++ [v0; v1] are those of the rotated cycle *)
    assert (P : Permutation (win v0 v1 (l ++ [v0; v1])) (trig (v0 :: v1 :: l))).
    { rewrite win_app. unfold trig. destruct (rev (v0 :: v1 :: l)) as [|y [|x k]] eqn:E.
      - apply (f_equal (@length X)) in E. rewrite rev_length in E. cbn in E. lia.
      - apply (f_equal (@length X)) in E. rewrite rev_length in E. cbn in E. lia.
      - cbn [win]. rewrite Permutation_app_comm. auto. }
    rewrite <- P. unfold trig at 1. rewrite rev_involutive.
    pose proof (win_rev (l ++ [v0; v1]) v0 v1) as W.
    assert (E : rev (v0 :: v1 :: l ++ [v0; v1]) = v1 :: v0 :: rev (v0 :: v1 :: l)).
    { change (v0 :: v1 :: l ++ [v0; v1]) with ((v0 :: v1 :: l) ++ [v0; v1]). rewrite rev_app_distr. reflexivity. }
    rewrite E in W. rewrite W. apply Permutation_sym, Permutation_rev.
  Qed.
End Windows.

(** ** Multisets of trigrams *)
Section Counting.
  Context {T : Type} {N : Num T} (D : T -> Prop) (OL : OrdLaws T N D).
  Notation V := (vec T).
  Notation G := (V * V * V)%type.
  Definition dt (t : G) : Prop := let '(a, b, c) := t in ord_pt D a /\ ord_pt D b /\ ord_pt D c.
  Definition eqb3 (s t : G) : bool :=
    let '(a, b, c) := s in let '(a', b', c') := t in vec_eqb a a' && vec_eqb b b' && vec_eqb c c'.

  Lemma neqb_refl x : D x -> (x =? x)%num = true.
  Proof. intro. rewrite (ol_eq _ _ _ OL) by auto. rewrite (ol_irrefl _ _ _ OL). auto. Qed.
  Lemma neqb_sym x y : D x -> D y -> (x =? y)%num = (y =? x)%num.
  Proof. intros. rewrite !(ol_eq _ _ _ OL) by auto. apply andb_comm. Qed.
  Lemma neqb_trans x y z : D x -> D y -> D z -> (x =? y)%num = true -> (y =? z)%num = true -> (x =? z)%num = true.
  Proof.
    intros Hx Hy Hz. rewrite !(ol_eq _ _ _ OL) by auto. rewrite !andb_true_iff, !negb_true_iff. intros [A B] [C E].
    split; [apply (ol_total _ _ _ OL) with y|apply (ol_total _ _ _ OL) with y]; auto.
  Qed.
  Lemma veqb_refl (v : V) : ord_pt D v -> vec_eqb v v = true.
  Proof. intros [A B]. unfold vec_eqb. rewrite !neqb_refl; auto. Qed.
  Lemma veqb_sym (v w : V) : ord_pt D v -> ord_pt D w -> vec_eqb v w = vec_eqb w v.
  Proof. intros [A B] [C E]. unfold vec_eqb. rewrite (neqb_sym (vx v)), (neqb_sym (vy v)); auto. Qed.
  Lemma veqb_trans (u v w : V) : ord_pt D u -> ord_pt D v -> ord_pt D w -> vec_eqb u v = true -> vec_eqb v w = true -> vec_eqb u w = true.
  Proof.
    intros [A B] [C E] [F G]. unfold vec_eqb. rewrite !andb_true_iff. intros [H1 H2] [H3 H4].
    split; [apply neqb_trans with (vx v)|apply neqb_trans with (vy v)]; auto.
  Qed.
  Lemma eqb3_refl t : dt t -> eqb3 t t = true.
  Proof. destruct t as [[a b] c]. intros (A & B & C). cbn. rewrite !veqb_refl; auto. Qed.
  Lemma eqb3_sym s t : dt s -> dt t -> eqb3 s t = eqb3 t s.
  Proof. destruct s as [[a b] c], t as [[a' b'] c']. intros (A & B & C) (A' & B' & C'). cbn. rewrite (veqb_sym a), (veqb_sym b), (veqb_sym c); auto. Qed.
  Lemma eqb3_trans s t u : dt s -> dt t -> dt u -> eqb3 s t = true -> eqb3 t u = true -> eqb3 s u = true.
  Proof.
    destruct s as [[a b] c], t as [[a' b'] c'], u as [[a'' b''] c'']. intros (A & B & C) (A' & B' & C') (A'' & B'' & C'').
    cbn. rewrite !andb_true_iff. intros [[H1 H2] H3] [[H4 H5] H6].
    repeat split; [apply veqb_trans with a'|apply veqb_trans with b'|apply veqb_trans with c']; auto.
  Qed.
  Lemma eqb3_cong s t u : dt s -> dt t -> dt u -> eqb3 s t = true -> eqb3 s u = eqb3 t u.
  Proof.
    intros Hs Ht Hu E. destruct (eqb3 t u) eqn:F.
    - apply eqb3_trans with t; auto.
    - destruct (eqb3 s u) eqn:F'; auto. rewrite <- F. symmetry. apply eqb3_trans with s; auto. rewrite eqb3_sym; auto.
  Qed.

  Definition cnt (t : G) (ts : list G) : nat := length (filter (eqb3 t) ts).
  Lemma cnt_cons t u ts : cnt t (u :: ts) = ((if eqb3 t u then 1 else 0) + cnt t ts)%nat.
  Proof. unfold cnt. cbn. destruct (eqb3 t u); auto. Qed.
  Lemma cnt_app t us ts : cnt t (us ++ ts) = (cnt t us + cnt t ts)%nat.
  Proof. unfold cnt. rewrite filter_app, app_length. auto. Qed.
  Lemma cnt_le t ts : (cnt t ts <= length ts)%nat.
  Proof. unfold cnt. induction ts; cbn; auto. destruct (eqb3 t a); cbn; lia. Qed.
  Lemma cnt_perm t us ts : Permutation us ts -> cnt t us = cnt t ts.
  Proof. induction 1; rewrite ?cnt_cons; lia. Qed.
  Lemma cnt_rev3 t ts : cnt t (map rev3 ts) = cnt (rev3 t) ts.
  Proof.
    induction ts as [|u ts IH]; auto. cbn [map]. rewrite !cnt_cons, IH. f_equal.
    destruct t as [[a b] c], u as [[a' b'] c']. cbn.
    destruct (vec_eqb a c'), (vec_eqb b b'), (vec_eqb c a'); auto.
  Qed.
  Lemma rev3_rev3 (t : G) : rev3 (rev3 t) = t.
  Proof. destruct t as [[a b] c]; auto. Qed.
  Lemma rev3_dt t : dt t -> dt (rev3 t).
  Proof. destruct t as [[a b] c]; cbn; tauto. Qed.
  Lemma cnt_cong s t ts : dt s -> dt t -> Forall dt ts -> eqb3 s t = true -> cnt s ts = cnt t ts.
  Proof. intros Hs Ht F E. induction F as [|u ts Hu F IH]; auto. rewrite !cnt_cons, IH, (eqb3_cong s t u); auto. Qed.

  (** s is the set the code has built after adding the trigrams ts *)
  Definition built (s : list (tgram (T := T))) (ts : list G) : Prop :=
    length s = length ts /\ Forall dt ts /\ Forall (fun x => dt (fst x)) s /\
    forall t k, dt t -> tg_mem (t, k) s = (k <? cnt t ts)%nat.

  Lemma built_nil : built [] [].
  Proof. repeat split; auto. Qed.
  Lemma tgram_eqb_pair t i u j : tgram_eqb (t, i) (u, j) = (eqb3 t u && Nat.eqb i j).
  Proof. destruct t as [[a b] c], u as [[a' b'] c']. reflexivity. Qed.
  Lemma fresh_spec s t c : (forall k, tg_mem (t, k) s = (k <? c)%nat) -> forall f i, (i <= c)%nat -> (c - i < f)%nat -> tg_fresh f (t, i) s = (t, c).
  Proof.
    intros H f. induction f as [|f IH]; intros i Hi Hf; [lia|]. cbn [tg_fresh]. rewrite H.
    destruct (Nat.ltb_spec i c).
    - destruct t as [[x y] z]. apply IH; lia.
    - f_equal. lia.
  Qed.
  Lemma built_fresh s ts t : built s ts -> dt t -> tg_fresh (S (length s)) (t, 0%nat) s = (t, cnt t ts).
  Proof. intros (L & F & F' & M) Ht. apply fresh_spec; auto; try lia. pose proof (cnt_le t ts). lia. Qed.
  Lemma built_cons s ts t : built s ts -> dt t -> built ((t, cnt t ts) :: s) (t :: ts).
  Proof.
    intros (L & F & F' & M) Ht. split; [cbn; auto|]. split; [auto|]. split; [auto|].
    intros u k Hu. unfold tg_mem. cbn [existsb]. rewrite tgram_eqb_pair. fold (tg_mem (u, k) s). rewrite M by auto. rewrite cnt_cons.
    destruct (eqb3 u t) eqn:E; cbn [andb orb].
    - rewrite <- (cnt_cong u t ts); auto. destruct (Nat.eqb_spec k (cnt u ts)), (Nat.ltb_spec k (cnt u ts)), (Nat.ltb_spec k (1 + cnt u ts)); auto; lia.
    - reflexivity.
  Qed.
  Lemma fold_add_built ts : forall s us, built s us -> Forall dt ts -> built (fold_left tg_add ts s) (rev ts ++ us).
  Proof.
    induction ts as [|t ts IH]; intros s us B F; auto. inversion F; subst. cbn [fold_left rev]. rewrite <- app_assoc. cbn [app]. apply IH; auto.
    destruct t as [[a b] c]. unfold tg_add. rewrite (built_fresh s us); auto. apply built_cons; auto.
  Qed.
  Lemma match_spec S A : built S A -> forall ts s us, built s us -> Forall dt ts ->
    (forall t, dt t -> (cnt t us <= cnt t A)%nat) ->
    match match_edges S s ts with
    | Some s' => built s' (rev ts ++ us)
    | None => exists t, dt t /\ (cnt t A < cnt t (rev ts ++ us))%nat
    end.
  Proof.
    intros BS ts. induction ts as [|t ts IH]; intros s us B F H; cbn [match_edges rev]; auto.
    inversion F; subst. destruct t as [[a b] c]. rewrite (built_fresh s us); auto.
    destruct BS as (LS & FS & FS' & MS). rewrite MS by auto.
    assert (Bs : built (((a, b, c), cnt (a, b, c) us) :: s) ((a, b, c) :: us)) by (apply built_cons; auto).
    destruct (Nat.ltb_spec (cnt (a, b, c) us) (cnt (a, b, c) A)) as [Hl|Hl].
    - rewrite <- app_assoc. apply (IH _ _ Bs); auto. intros u Hu. rewrite cnt_cons. destruct (eqb3 u (a, b, c)) eqn:E; [|apply H; auto].
      rewrite (cnt_cong u (a, b, c) us), (cnt_cong u (a, b, c) A); auto. apply B.
    - exists (a, b, c). split; auto. rewrite <- app_assoc, cnt_app. cbn [app]. rewrite cnt_cons, eqb3_refl; auto. lia.
  Qed.
  Lemma existsb_cong s t k : dt s -> dt t -> eqb3 s t = true -> forall l, Forall (fun x => dt (fst x)) l -> tg_mem (s, k) l = tg_mem (t, k) l.
  Proof.
    intros Hs Ht E l F. unfold tg_mem. induction F as [|[u j] l Hu F IH]; auto. cbn [existsb]. rewrite IH, !tgram_eqb_pair, (eqb3_cong s t u); auto.
  Qed.
  Lemma set_eqb_spec S A s ts : built S A -> built s ts -> length A = length ts -> 
    (forall t, dt t -> (cnt t ts <= cnt t A)%nat) ->
    (set_eqb S s = true <-> forall t, dt t -> cnt t A = cnt t ts).
  Proof.
    intros BS Bs HL Hle. unfold set_eqb. destruct BS as (LS & FS & FS' & MS), Bs as (Ls & Fs & Fs' & Ms). rewrite LS, Ls, HL, Nat.eqb_refl. cbn [andb].
    rewrite forallb_forall. split.
    - intros H t Ht. specialize (Hle t Ht). destruct (cnt t A) as [|k] eqn:EA; [lia|].
      assert (M : tg_mem (t, k) S = true). { rewrite MS, EA by auto. apply Nat.ltb_lt. lia. }
      unfold tg_mem in M. apply existsb_exists in M. destruct M as ([u j] & Hin & E). rewrite tgram_eqb_pair in E. apply andb_true_iff in E.
      destruct E as [E Ej]. apply Nat.eqb_eq in Ej. subst j.
      assert (Hu : dt u). { rewrite Forall_forall in FS'. apply (FS' (u, k)); auto. }
      specialize (H _ Hin). rewrite <- (existsb_cong t u k) in H; auto. rewrite Ms in H by auto. apply Nat.ltb_lt in H. lia.
    - intros H [u j] Hin. assert (Hu : dt u). { rewrite Forall_forall in FS'. apply (FS' (u, j)); auto. }
      rewrite Ms, <- H, <- MS by auto. unfold tg_mem. apply existsb_exists. exists (u, j). split; auto. rewrite tgram_eqb_pair, eqb3_refl, Nat.eqb_refl; auto.
  Qed.
  Definition same_counts (A B : list G) : Prop := forall t, dt t -> cnt t A = cnt t B.
  Lemma match_counts A ts : Forall dt A -> Forall dt ts -> length A = length ts ->
    match match_edges (fold_left tg_add A []) [] ts with Some oe => set_eqb (fold_left tg_add A []) oe | None => false end = true <-> same_counts A ts.
  Proof.
    intros FA Ft HL.
    assert (BS : built (fold_left tg_add A []) (rev A)).
    { pose proof (fold_add_built A [] [] built_nil FA) as B. rewrite app_nil_r in B. auto. }
    pose proof (match_spec _ _ BS ts [] [] built_nil Ft) as M. rewrite app_nil_r in M.
    assert (CA : forall t, cnt t (rev A) = cnt t A). { intro. apply cnt_perm, Permutation_sym, Permutation_rev. }
    assert (Ct : forall t, cnt t (rev ts) = cnt t ts). { intro. apply cnt_perm, Permutation_sym, Permutation_rev. }
    specialize (M ltac:(intros; cbn; lia)). unfold same_counts.
    destruct (match_edges _ _ _) as [s'|] eqn:E.
    - destruct (forallb_forall (fun x => tg_mem x s') (fold_left tg_add A [])) as [Hf _].
      rename M into Bs.
      assert (Hle : forall t, dt t -> (cnt t (rev ts) <= cnt t (rev A))%nat \/ ~ (cnt t (rev ts) <= cnt t (rev A))%nat) by (intros; lia).
      (* the match succeeded, so no count exceeds *)
      assert (Hle' : forall t, dt t -> (cnt t (rev ts) <= cnt t (rev A))%nat).
      { clear Hf Hle. 
        assert (K : forall ts s us, built s us -> Forall dt ts -> (forall t, dt t -> (cnt t us <= cnt t (rev A))%nat) ->
                  forall s', match_edges (fold_left tg_add A []) s ts = Some s' -> forall t, dt t -> (cnt t (rev ts ++ us) <= cnt t (rev A))%nat).
        { clear E Bs Ct Ft HL ts s'. destruct BS as (LS & FS & FS' & MS).
          intros ts. induction ts as [|t ts IH]; intros s us B F H s' E u Hu; cbn [match_edges rev] in *; auto.
          inversion F; subst. destruct t as [[a b] c]. rewrite (built_fresh s us) in E; auto. rewrite MS in E by auto.
          destruct (Nat.ltb_spec (cnt (a, b, c) us) (cnt (a, b, c) (rev A))) as [Hl|Hl]; [|discriminate].
          rewrite <- app_assoc. cbn [app].
          eapply (IH _ ((a, b, c) :: us)); [apply built_cons; eauto|auto| |exact E|auto].
          intros v Hv. rewrite cnt_cons. destruct (eqb3 v (a, b, c)) eqn:E'; [|apply H; auto].
          rewrite (cnt_cong v (a, b, c) us), (cnt_cong v (a, b, c) (rev A)); auto. apply B. }
        intros t Ht. pose proof (K ts [] [] built_nil Ft ltac:(intros; cbn; lia) s' E t Ht) as K'. rewrite app_nil_r in K'. auto. }
      rewrite (set_eqb_spec _ _ _ _ BS Bs); auto.
      + split; intros H t Ht; specialize (H t Ht); rewrite CA, Ct in *; auto.
      + rewrite !rev_length; auto.
    - split; [discriminate|]. intro H. destruct M as (t & Ht & Hl). rewrite CA, Ct, (H t Ht) in Hl. lia.
  Qed.

  Lemma win_trigrams l : forall a b : V, trigrams_from a b l = win a b l.
  Proof. reflexivity. Qed.
  Lemma trigrams_trig (l : list V) : (2 <= length l)%nat -> trigrams l = Ok (trig l).
  Proof.
    intro H. unfold trig. destruct (rev l) as [|y [|x k]] eqn:E.
    1,2: apply (f_equal (@length _)) in E; rewrite rev_length in E; cbn in E; lia.
    assert (El : l = (rev k ++ [x]) ++ [y]). { rewrite <- (rev_involutive l), E. reflexivity. }
    assert (L : length l = S (S (length k))). { rewrite <- rev_length, E. reflexivity. }
    unfold trigrams. destruct l as [|z l]; [discriminate|]. remember (z :: l) as l' eqn:E'. 
    replace (py_get l' (-1)) with (Ok y).
    2:{ destruct (py_get_neg l' 1 ltac:(lia)) as (w & Hw & Hn). change (- Z.of_nat 1)%Z with (-1)%Z in Hw. rewrite Hw. f_equal. revert Hn. rewrite L, El. replace (S (S (length k)) - 1)%nat with (length (rev k ++ [x]))%nat by (rewrite app_length, rev_length; cbn; lia).
        rewrite nth_error_app2, Nat.sub_diag by lia. cbn. congruence. }
    cbn [bind]. replace (py_get l' (-2)) with (Ok x).
    2:{ destruct (py_get_neg l' 2 ltac:(lia)) as (w & Hw & Hn). change (- Z.of_nat 2)%Z with (-2)%Z in Hw. rewrite Hw. f_equal. revert Hn. rewrite L, El. replace (S (S (length k)) - 2)%nat with (length (rev k))%nat by (rewrite rev_length; lia).
        rewrite <- app_assoc, nth_error_app2, Nat.sub_diag by lia. cbn. congruence. }
    cbn [bind]. rewrite win_trigrams. auto.
  Qed.
  Lemma trig_dt (l : list V) : Forall (ord_pt D) l -> Forall dt (trig l).
  Proof.
    intro F. unfold trig. destruct (rev l) as [|y [|x k]] eqn:E; auto.
    assert (Hx : ord_pt D x /\ ord_pt D y). { rewrite Forall_forall in F. split; apply F; apply in_rev; rewrite E; cbn; auto. }
    destruct Hx as [Hx Hy]. clear E. revert x y Hx Hy. induction F as [|c l Hc F IH]; intros; cbn; constructor; cbn; auto.
  Qed.

  Definition eqrel (l m : list V) : Prop :=
    length l = length m /\ (same_counts (trig l) (trig m) \/ same_counts (trig l) (map rev3 (trig m))).

  Lemma pointwise_counts (l m : list V) : Forall (ord_pt D) l -> Forall (ord_pt D) m -> length l = length m ->
    forallb (fun ab => negb (vec_neb (fst ab) (snd ab))) (combine l m) = true -> same_counts (trig l) (trig m).
  Proof.
    intros Fl Fm HL H.
    assert (E : Forall2 (fun a b => vec_eqb a b = true) l m).
    { revert m Fm HL H. induction l as [|a l IH]; intros [|b m] Fm HL H; try discriminate; constructor.
      - cbn in H. apply andb_true_iff in H. destruct H as [H _]. unfold vec_neb, vec_eqb in *. 
        rewrite negb_orb in H. rewrite !negb_involutive in H. auto.
      - inversion Fl; inversion Fm; subst. apply IH; auto. cbn in H. apply andb_true_iff in H. tauto. }
    assert (Er : Forall2 (fun a b => vec_eqb a b = true) (rev l) (rev m)).
    { clear -E. induction E; cbn; auto. apply Forall2_app; auto. }
    assert (Frl : Forall (ord_pt D) (rev l)) by (apply Forall_rev; auto).
    assert (Frm : Forall (ord_pt D) (rev m)) by (apply Forall_rev; auto).
    unfold trig. destruct Er as [|y y' ? ? Ey Er]; [intros ? ?; auto|]. destruct Er as [|x x' ? ? Ex Er]; [intros ? ?; auto|].
    inversion Frl as [|? ? Hy Frl']; inversion Frm as [|? ? Hy' Frm']; subst. inversion Frl' as [|? ? Hx _]; inversion Frm' as [|? ? Hx' _]; subst.
    clear Frl Frm Frl' Frm' Er HL H. revert x x' y y' Ex Ey Hx Hx' Hy Hy'. induction E as [|a b l m Eab E IH]; intros; [intros ? ?; auto|].
    inversion Fl; inversion Fm; subst. intros t Ht. cbn [win]. rewrite !cnt_cons. f_equal.
    - rewrite (eqb3_sym t (x, y, a)), (eqb3_sym t (x', y', b)) by (cbn; auto). rewrite (eqb3_cong (x, y, a) (x', y', b) t); cbn; auto. rewrite Ex, Ey, Eab. auto.
    - apply IH; auto.
  Qed.

  Lemma poly_eqb_spec (l m : list V) : (2 <= length l)%nat -> (2 <= length m)%nat -> Forall (ord_pt D) l -> Forall (ord_pt D) m ->
    exists b, poly_eqb_verts l m = Ok b /\ (b = true <-> eqrel l m).
  Proof.
    intros H2 H2' Fl Fm. unfold poly_eqb_verts, eqrel. destruct (Nat.eqb_spec (length l) (length m)) as [HL|HL]; cbn [negb].
    2:{ exists false. split; auto. split; [discriminate|tauto]. }
    destruct (forallb _ (combine l m)) eqn:EF.
    { exists true. split; auto. split; auto. intros _. split; auto. left. apply pointwise_counts; auto. }
    rewrite (trigrams_trig l), (trigrams_trig m) by auto. cbn [bind].
    assert (Lt : length (trig l) = length (trig m)) by (rewrite !trig_length; auto).
    assert (Dl := trig_dt l Fl). assert (Dm := trig_dt m Fm).
    pose proof (match_counts (trig l) (trig m) Dl Dm Lt) as M1.
    assert (Dr : Forall dt (map rev3 (trig m))). { rewrite Forall_map. eapply Forall_impl; [|exact Dm]. intros. apply rev3_dt; auto. }
    pose proof (match_counts (trig l) (map rev3 (trig m)) Dl Dr ltac:(rewrite map_length; auto)) as M2.
    destruct (match match_edges _ [] (trig m) with Some _ => _ | None => _ end) eqn:E1.
    { exists true. split; auto. split; auto. intros _. split; auto. left. apply M1; auto. }
    change (map (fun '(a, b, c) => (c, b, a)) (trig m)) with (map (@rev3 V) (trig m)).
    destruct (match_edges _ [] (map rev3 (trig m))) as [oe|] eqn:E2.
    - exists (set_eqb (fold_left tg_add (trig l) []) oe). split; auto. rewrite M2. split; [tauto|]. intros [_ [H|H]]; auto. apply M1 in H. discriminate.
    - exists false. split; auto. split; [discriminate|]. intros [_ [H|H]]; [apply M1 in H|apply M2 in H]; discriminate.
  Qed.

  Lemma eqrel_refl l : eqrel l l.
  Proof. split; auto. left. intros ? ?; auto. Qed.
  Lemma eqrel_sym l m : eqrel l m -> eqrel m l.
  Proof.
    intros [HL [H|H]]; split; auto; [left|right]; intros t Ht; [symmetry; auto|].
    rewrite cnt_rev3. rewrite (H (rev3 t)) by (apply rev3_dt; auto). rewrite cnt_rev3, rev3_rev3. auto.
  Qed.
  Lemma eqrel_trans l m n : eqrel l m -> eqrel m n -> eqrel l n.
  Proof.
    intros [HL [H|H]] [HL' [H'|H']]; split; try congruence.
    - left. intros t Ht. rewrite H, H'; auto.
    - right. intros t Ht. rewrite H, H'; auto.
    - right. intros t Ht. rewrite H, !cnt_rev3, H'; auto. apply rev3_dt; auto.
    - left. intros t Ht. rewrite H, !cnt_rev3, H' by (auto; apply rev3_dt; auto). rewrite cnt_rev3, rev3_rev3. auto.
  Qed.
  Lemma eqrel_cycle l m : (2 <= length l)%nat -> same_cycle l m -> eqrel l m.
  Proof.
    intros H2 [H|H].
    - split; [destruct H as (a & b & -> & ->); rewrite !app_length; lia|]. left. intros t _. apply cnt_perm, trig_rotated; auto.
    - assert (HL : length l = length m). { rewrite <- (rev_length m). destruct H as (a & b & -> & ->). rewrite !app_length; lia. }
      split; auto. right. intros t _. apply cnt_perm. rewrite <- trig_rev by lia. apply trig_rotated; auto.
  Qed.
End Counting.

(** ** From trigrams back to the cycle *)
Section Rebuild.
  Context {X : Type}.
  Lemma win_determined (S : X * X * X -> Prop) : (forall a b c c', S (a, b, c) -> S (a, b, c') -> c = c') ->
    forall l m a b, length l = length m -> Forall S (win a b l) -> Forall S (win a b m) -> l = m.
  Proof.
    intro F. induction l as [|c l IH]; intros [|c' m] a b HL Hl Hm; try discriminate; auto. cbn [win] in *. inversion Hl; inversion Hm; subst.
    assert (c = c') by eauto. subst c'. f_equal. eapply IH; eauto.
  Qed.
  Lemma win_in (x y z : X) (l : list X) : forall a b, In (x, y, z) (win a b l) -> exists l1 l2, l = l1 ++ z :: l2 /\ exists r, rev (a :: b :: l1) = y :: x :: r.
  Proof.
    induction l as [|c l IH]; intros a b H; cbn in H; [tauto|]. destruct H as [H|H].
    - injection H as -> -> ->. exists [], l. split; auto. exists []. auto.
    - destruct (IH b c H) as (l1 & l2 & -> & r & Hr). exists (c :: l1), l2. split; auto. cbn [rev] in *. rewrite Hr. cbn. eauto.
  Qed.
  Lemma trig_in (x y z : X) (l : list X) : In (x, y, z) (trig l) -> (2 <= length l)%nat ->
    exists m r, rotated l m /\ m = z :: r /\ exists k, rev m = y :: x :: k.
  Proof.
    intros H H2. unfold trig in H. destruct (rev l) as [|y0 [|x0 k0]] eqn:E; try (destruct H; fail).
    destruct (win_in _ _ _ _ _ _ H) as (l1 & l2 & El & r & Hr). exists (z :: l2 ++ l1), (l2 ++ l1).
    split; [exists l1, (z :: l2); auto|]. split; auto. 
    change (z :: l2 ++ l1) with ((z :: l2) ++ l1). rewrite rev_app_distr.
    cbn [rev] in Hr. assert (Er : rev l = rev (z :: l2) ++ rev l1) by (rewrite El, rev_app_distr; auto). rewrite E in Er.
    destruct (rev l1) as [|u [|v w]] eqn:E1; cbn [app] in *.
    - rewrite app_nil_r in Er. injection Hr as -> -> _. rewrite <- Er. eauto.
    - injection Hr as -> -> _. destruct (rev (z :: l2)) as [|s t] eqn:E2.
      { apply (f_equal (@length X)) in E2. rewrite rev_length in E2. discriminate. }
      cbn [app] in *. injection Er as <- _. eauto.
    - injection Hr as -> -> _. eauto.
  Qed.
  Fixpoint adj (a : X) (l : list X) : list (X * X) := match l with [] => [] | b :: l' => (a, b) :: adj b l' end.
  Lemma cyc_adj f l : forall a, cyc_pairs_from f (a :: l) = adj a (l ++ [f]).
  Proof. induction l as [|b l IH]; intro a; auto. cbn [app adj]. rewrite <- IH. reflexivity. Qed.
  Lemma win_adj l c : forall a b, map fst (win a b (l ++ [c])) = (a, b) :: adj b l.
  Proof. induction l as [|d l IH]; intros; auto. cbn [app win map fst adj]. rewrite IH. reflexivity. Qed.
  Lemma adj_snoc l x y v : forall a, adj a (l ++ [x; y; v]) = adj a (l ++ [x]) ++ [(x, y); (y, v)].
  Proof. induction l as [|d l IH]; intros; auto. cbn [app adj]. rewrite IH. reflexivity. Qed.
  Lemma trig_pairs (l : list X) : (2 <= length l)%nat -> Permutation (map fst (trig l)) (cyc_pairs l).
  Proof.
    intro H. unfold trig. destruct (rev l) as [|y [|x k0]] eqn:E.
    1,2: apply (f_equal (@length _)) in E; rewrite rev_length in E; cbn in E; lia.
    assert (El : l = rev k0 ++ [x; y]). { rewrite <- (rev_involutive l), E. cbn. rewrite <- app_assoc. reflexivity. }
    clear E. rewrite El. clear El. generalize (rev k0) as k. intro k.
    change [x; y] with ([x] ++ [y]). rewrite app_assoc, win_adj, <- app_assoc. cbn [app]. unfold cyc_pairs. destruct k as [|v k]; cbn [app].
    - cbn. auto.
    - rewrite cyc_adj, <- app_assoc. cbn [app adj]. rewrite adj_snoc. apply (Permutation_app_comm [(x, y); (y, v)]).
  Qed.
  Lemma nodup_functional (S : list (X * X * X)) : NoDup (map fst S) -> forall a b c c', In (a, b, c) S -> In (a, b, c') S -> c = c'.
  Proof.
    induction S as [|[[u v] w] S IH]; cbn; [tauto|]. intros ND a b c c' H H'. inversion ND as [|? ? Hn ND']; subst.
    assert (K : forall z, In (u, v, z) S -> False). { intros z Hz. apply Hn. apply in_map_iff. exists (u, v, z). auto. }
    destruct H as [H|H], H' as [H'|H'].
    - congruence.
    - injection H as -> -> ->. exfalso. eauto.
    - injection H' as -> -> ->. exfalso. eauto.
    - eauto.
  Qed.
  Lemma rotated_refl (l : list X) : rotated l l.
  Proof. exists [], l. rewrite app_nil_r. auto. Qed.
  Lemma rotated_sym (l m : list X) : rotated l m -> rotated m l.
  Proof. intros (a & b & -> & ->). exists b, a. auto. Qed.
  Lemma rotated_length (l m : list X) : rotated l m -> length l = length m.
  Proof. intros (a & b & -> & ->). rewrite !app_length. lia. Qed.
  Lemma same_trig_rotated (l m : list X) : (2 <= length l)%nat -> length l = length m -> NoDup (cyc_pairs l) -> Permutation (trig l) (trig m) -> rotated l m.
  Proof.
    intros H2 HL ND P.
    destruct (trig m) as [|[[x y] z] tm] eqn:Em. { apply (f_equal (@length _)) in Em. rewrite trig_length in Em by lia. cbn in Em. lia. }
    assert (Hin : In (x, y, z) (trig l)). { eapply Permutation_in; [apply Permutation_sym; exact P|cbn; auto]. }
    destruct (trig_in _ _ _ _ Hin H2) as (l' & r & R & El' & k & Hk).
    replace m with l'; auto.
    pose proof (trig_rotated l l' H2 R) as Pl. rewrite Pl in P.
    assert (L' := rotated_length _ _ R).
    assert (ND' : NoDup (map fst (trig l))). { eapply Permutation_NoDup; [|exact ND]. apply Permutation_sym, trig_pairs; auto. }
    assert (F := nodup_functional _ ND').
    rewrite <- Em in P. unfold trig in Em. destruct (rev m) as [|y' [|x' km]] eqn:Erm; try discriminate. destruct m as [|z' m]; [discriminate|]. cbn [win] in Em.
    injection Em as -> -> -> _.
    eapply (win_determined (fun t => In t (trig l)) F l' (z :: m) x y); [lia| |].
    - apply Forall_forall. intros t Ht. eapply Permutation_in; [apply Permutation_sym; exact Pl|]. unfold trig. rewrite Hk. auto.
    - apply Forall_forall. intros t Ht. eapply Permutation_in; [apply Permutation_sym; exact Pl|]. eapply Permutation_in; [apply Permutation_sym; exact P|].
      unfold trig. rewrite Erm. auto.
  Qed.
  Lemma rotated_dec_k (l m : list X) : rotated l m -> exists k, (k <= length l)%nat /\ m = skipn k l ++ firstn k l.
  Proof.
    intros (a & b & -> & ->). exists (length a). split; [rewrite app_length; lia|].
    rewrite skipn_app, skipn_all, Nat.sub_diag, firstn_app, firstn_all, Nat.sub_diag. cbn. rewrite app_nil_r. auto.
  Qed.
  Lemma cyc_fst f (l : list X) : map fst (cyc_pairs_from f l) = l.
  Proof. induction l as [|a [|b l] IH]; auto. change (cyc_pairs_from f (a :: b :: l)) with ((a, b) :: cyc_pairs_from f (b :: l)). cbn [map fst]. rewrite IH. auto. Qed.
  Lemma cyc_pairs_nodup (l : list X) : NoDup l -> NoDup (cyc_pairs l).
  Proof. intro H. apply (NoDup_map_inv fst). destruct l; [auto|]. unfold cyc_pairs. rewrite cyc_fst. auto. Qed.
End Rebuild.
  Lemma rotated_map {X Y} (f : X -> Y) (l m : list X) : (forall a b, f a = f b -> a = b) -> rotated (map f l) (map f m) -> rotated l m.
  Proof.
    intros I H. destruct (rotated_dec_k _ _ H) as (k & _ & E). rewrite skipn_map, firstn_map, <- map_app in E.
    assert (Em : m = skipn k l ++ firstn k l).
    { clear H. revert E. generalize (skipn k l ++ firstn k l). induction m as [|a m IH]; intros [|b n] E; try discriminate; auto. injection E as E1 E2. f_equal; auto. }
    exists (firstn k l), (skipn k l). rewrite firstn_skipn. auto.
  Qed.


(** ** Over the reals *)
Lemma eqb3_R (s t : pt * pt * pt) : eqb3 s t = true <-> s = t.
Proof.
  destruct s as [[a b] c], t as [[a' b'] c']. cbn. rewrite !andb_true_iff, !vec_eqb_R. split.
  - intros [[-> ->] ->]. auto.
  - intro H. injection H as -> -> ->. auto.
Qed.
Lemma tri_dec (s t : pt * pt * pt) : {s = t} + {s <> t}.
Proof. destruct (eqb3 s t) eqn:E; [left; apply eqb3_R; auto|right; intro H; apply eqb3_R in H; congruence]. Qed.
Lemma cnt_occ t (l : list (pt * pt * pt)) : cnt t l = count_occ tri_dec l t.
Proof.
  induction l as [|u l IH]; auto. rewrite cnt_cons, IH. cbn. destruct (tri_dec u t) as [->|Hn].
  - destruct (eqb3 t t) eqn:E; auto. exfalso. assert (eqb3 t t = true) by (apply eqb3_R; auto). congruence.
  - destruct (eqb3 t u) eqn:E; auto. apply eqb3_R in E. congruence.
Qed.
Lemma dt_R t : dt (fun _ : R => True) t.
Proof. destruct t as [[a b] c]. repeat split. Qed.
Lemma counts_perm_R (l m : list (pt * pt * pt)) : same_counts (fun _ : R => True) l m -> Permutation l m.
Proof. intro H. apply (Permutation_count_occ tri_dec). intro t. rewrite <- !cnt_occ. apply H, dt_R. Qed.
Lemma eqrel_cycle_R (l m : list pt) : (2 <= length l)%nat -> NoDup (cyc_pairs l) -> eqrel (fun _ : R => True) l m -> same_cycle l m.
Proof.
  intros H2 ND [HL [H|H]]; apply counts_perm_R in H.
  - left. apply same_trig_rotated; auto.
  - right. apply same_trig_rotated; auto; [rewrite rev_length; auto|]. rewrite trig_rev by lia. auto.
Qed.
