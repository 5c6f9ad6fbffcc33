(** * Insertion sort *)
From Coq Require Import List Bool Permutation Sorted.
From Verif Require Import Num Vec Polygon.
Import ListNotations.
Section Sort.
  Context {X : Type} (lt : X -> X -> bool).
  Lemma insert_perm x l : Permutation (insert_by lt x l) (x :: l).
  Proof. induction l as [|y l IH]; cbn [insert_by]; auto. destruct (lt x y); auto. rewrite IH. apply perm_swap. Qed.
  Lemma sort_perm l : Permutation (sort_by lt l) l.
  Proof.
    unfold sort_by. assert (H : forall acc, Permutation (fold_left (fun acc x => insert_by lt x acc) l acc) (l ++ acc)).
    { induction l as [|x l IH]; intro acc; cbn [fold_left app]; auto. rewrite IH, insert_perm. symmetry. apply Permutation_middle. }
    rewrite H, app_nil_r. auto.
  Qed.
  Lemma sort_in x l : In x (sort_by lt l) <-> In x l.
  Proof. split; apply Permutation_in; [|symmetry]; apply sort_perm. Qed.
  Definition nlt (a b : X) : Prop := lt b a = false.
  Hypothesis asym : forall a b, lt a b = true -> lt b a = false.
  Hypothesis trans : forall a b c, nlt a b -> nlt b c -> nlt a c.
  Lemma insert_sorted x l : StronglySorted nlt l -> StronglySorted nlt (insert_by lt x l).
  Proof.
    induction l as [|y l IH]; cbn [insert_by]; intro H; [constructor; auto|]. inversion H as [|? ? H1 H2]; subst.
    destruct (lt x y) eqn:E.
    - constructor; auto. assert (N : nlt x y) by (apply asym; auto). constructor; auto. eapply Forall_impl; [|exact H2]. intros z Hz. eapply trans; eauto.
    - constructor; auto. apply Forall_forall. intros z Hz. apply (Permutation_in _ (insert_perm x l)) in Hz. destruct Hz as [<-|Hz]; [exact E|]. rewrite Forall_forall in H2. auto.
  Qed.
  Lemma sort_sorted l : StronglySorted nlt (sort_by lt l).
  Proof.
    unfold sort_by. assert (H : forall acc, StronglySorted nlt acc -> StronglySorted nlt (fold_left (fun acc x => insert_by lt x acc) l acc)).
    { induction l as [|x l IH]; intros acc Ha; cbn [fold_left]; auto. apply IH, insert_sorted; auto. }
    apply H. constructor.
  Qed.
End Sort.
Lemma sorted_split {X} (le : X -> X -> Prop) l1 x l2 : StronglySorted le (l1 ++ x :: l2) -> Forall (fun y => le y x) l1 /\ Forall (le x) l2.
Proof.
  induction l1 as [|y l1 IH]; cbn [app]; intro H; inversion H; subst; auto. destruct IH as [A B]; auto. split; auto. constructor; auto.
  match goal with H : Forall _ (l1 ++ x :: l2) |- _ => rewrite Forall_forall in H; apply H end. apply in_or_app. right. left. auto.
Qed.
