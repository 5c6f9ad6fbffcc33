(** * The plane sweep of is_simple *)
From Coq Require Import ZArith List Bool Arith Reals Lra Lia Psatz Permutation Sorted.
From Verif Require Import Num Vec Affine Box Seq Polygon SpecGeom SpecSimple RBase VecFacts VecFacts2 SortFacts.
Import ListNotations.

(** ** The loop: a hit is an opening event with an open partner. *)
Section Sweep.
  Context {T : Type} {N : Num T}.
  Notation ev := (vec T * vec T * nat)%type.
  Definition test (L : nat) (x y : ev) : bool := hits_open L x [y].
  Lemma hits_any L x open : hits_open L x open = true <-> exists y, In y open /\ test L x y = true.
  Proof.
    unfold test, hits_open. destruct x as [[s e] i]. rewrite existsb_exists. split.
    - intros (y & Hy & H). exists y. split; auto. cbn [existsb]. rewrite H. auto.
    - intros (y & Hy & H). exists y. split; auto. cbn [existsb] in H. rewrite orb_false_r in H. auto.
  Qed.
  (** how often the index occurs *)
  Definition occ (i : nat) (l : list ev) : nat := length (filter (fun y : ev => Nat.eqb (snd y) i) l).
  Lemma occ_app i l m : occ i (l ++ m) = (occ i l + occ i m)%nat.
  Proof. unfold occ. rewrite filter_app, app_length. auto. Qed.
  Lemma occ_cons i x l : occ i (x :: l) = ((if Nat.eqb (snd x) i then 1 else 0) + occ i l)%nat.
  Proof. unfold occ. cbn [filter]. destruct (Nat.eqb _ _); auto. Qed.
  Lemma occ_in i l : (0 < occ i l)%nat <-> exists y, In y l /\ snd y = i.
  Proof.
    unfold occ. split.
    - intro H. destruct (filter (fun y : ev => Nat.eqb (snd y) i) l) as [|y t] eqn:E; [cbn in H; lia|]. exists y.
      assert (K : In y (filter (fun y : ev => Nat.eqb (snd y) i) l)) by (rewrite E; left; auto). apply filter_In in K as [K1 K2]. apply Nat.eqb_eq in K2. auto.
    - intros (y & H & E). assert (K : In y (filter (fun y : ev => Nat.eqb (snd y) i) l)) by (apply filter_In; split; auto; apply Nat.eqb_eq; auto). destruct (filter (fun y : ev => Nat.eqb (snd y) i) l); [destruct K|cbn; lia].
  Qed.
  Lemma occ_perm i l m : Permutation l m -> occ i l = occ i m.
  Proof. induction 1; rewrite ?occ_cons; lia. Qed.
  Definition hit (L : nat) (A B : list ev) : Prop := exists B1 x B2 y,
    B = B1 ++ x :: B2 /\ occ (snd x) (A ++ B1) = 0%nat /\ In y (A ++ B1) /\ (0 < occ (snd y) B2)%nat /\ test L x y = true.
  Lemma sweep_loop L B : forall A open, (forall x, In x B -> occ (snd x) (A ++ B) = 2%nat) -> (forall y, In y open <-> In y A /\ (0 < occ (snd y) B)%nat) ->
    (sweep L open B = false <-> hit L A B).
  Proof.
    induction B as [|x B IH]; intros A open H2 Ho; cbn [sweep].
    - split; [discriminate|]. intros (B1 & x & B2 & y & E & _). destruct B1; discriminate.
    - pose proof (H2 x (or_introl eq_refl)) as Hx. rewrite occ_app, occ_cons, Nat.eqb_refl in Hx.
      replace (let '(_, i) := x in _) with (if existsb (fun y => Nat.eqb (snd y) (snd x)) open then sweep L (filter (fun y => negb (Nat.eqb (snd y) (snd x))) open) B else if hits_open L x open then false else sweep L (open ++ [x]) B) by (destruct x as [[s e] i]; reflexivity).
      assert (Hopen : existsb (fun y => Nat.eqb (snd y) (snd x)) open = true <-> (0 < occ (snd x) A)%nat).
      { rewrite existsb_exists, occ_in. split.
        - intros (y & Hy & E). apply Nat.eqb_eq in E. apply Ho in Hy. exists y. tauto.
        - intros (y & Hy & E). exists y. split; [apply Ho; split; auto|apply Nat.eqb_eq; auto]. rewrite E, occ_cons, Nat.eqb_refl. lia. }
      assert (Hstep : forall open', (forall y, In y open' <-> In y (A ++ [x]) /\ (0 < occ (snd y) B)%nat) -> (sweep L open' B = false <-> hit L (A ++ [x]) B)).
      { intros open' K. apply IH; auto. intros z Hz. rewrite <- app_assoc. apply H2. right. auto. }
      assert (Hnext : hit L (A ++ [x]) B -> hit L A (x :: B)).
      { intros (B1 & z & B2 & y & -> & E1 & E2 & E3 & E4). exists (x :: B1), z, B2, y. rewrite <- !app_assoc in *. auto. }
      destruct (existsb _ open) eqn:Eo.
      + assert (P : (0 < occ (snd x) A)%nat) by (apply Hopen; auto). rewrite Hstep.
        * split; auto. intros ([|z B1] & w & B2 & y & E & E1 & E2 & E3 & E4); injection E as -> E.
          -- rewrite app_nil_r in E1. lia.
          -- exists B1, w, B2, y. subst B. rewrite <- !app_assoc. auto.
        * intro y. rewrite filter_In, Ho, in_app_iff, occ_cons. destruct (Nat.eqb (snd y) (snd x)) eqn:Q; cbn [negb].
          -- apply Nat.eqb_eq in Q. rewrite Q in *. split; [intros [_ K]; discriminate|]. intros [_ K]. lia.
          -- apply Nat.eqb_neq in Q. assert (W : Nat.eqb (snd x) (snd y) = false) by (apply Nat.eqb_neq; auto). rewrite W. split; [intros [[? ?] _]; auto|]. intros [[K1|[K1|[]]] K2]; [auto|subst; contradiction].
      + assert (P : occ (snd x) A = 0%nat). { destruct (occ (snd x) A); auto. assert (false = true) by (apply Hopen; lia). discriminate. }
        destruct (hits_open L x open) eqn:Eh.
        * split; auto. intros _. apply hits_any in Eh as (y & Hy & Ht). apply Ho in Hy as [Hy1 Hy2]. exists [], x, B, y. rewrite app_nil_r. split; auto. split; auto. split; auto. split; auto.
          rewrite occ_cons in Hy2. destruct (Nat.eqb (snd x) (snd y)) eqn:Q; [|lia]. apply Nat.eqb_eq in Q. rewrite <- Q. lia.
        * rewrite Hstep.
          -- split; auto. intros ([|z B1] & w & B2 & y & E & E1 & E2 & E3 & E4); injection E as -> E.
             ++ subst B2. rewrite app_nil_r in *. assert (K : hits_open L w open = true). { apply hits_any. exists y. split; auto. apply Ho. split; auto. rewrite occ_cons. lia. } congruence.
             ++ exists B1, w, B2, y. subst B. rewrite <- !app_assoc. auto.
          -- intro y. rewrite !in_app_iff, Ho, occ_cons. destruct (Nat.eqb (snd x) (snd y)) eqn:Q.
             ++ apply Nat.eqb_eq in Q. rewrite <- Q. split.
                ** intros [[K1 K2]|[<-|[]]]; [|split; [right; left; auto|lia]]. exfalso. assert (0 < occ (snd x) A)%nat by (apply occ_in; exists y; auto). lia.
                ** intros [[K1|[K1|[]]] K2]; [|right; left; auto]. exfalso. assert (0 < occ (snd x) A)%nat by (apply occ_in; exists y; auto). lia.
             ++ apply Nat.eqb_neq in Q. split; [intros [[K1 K2]|[<-|[]]]; [auto|contradiction]|]. intros [[K1|[K1|[]]] K2]; [left; split; auto; lia|subst; contradiction].
  Qed.
End Sweep.
