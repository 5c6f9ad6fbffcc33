(** * Facts about the store of sequences *)
From Coq Require Import ZArith List Bool Lia.
From Verif Require Import Num Vec Affine Seq Heap.
Import ListNotations.

Lemma nth_list_set {X} (l : list X) k x j : (k < length l)%nat ->
  nth_error (list_set l k x) j = if Nat.eqb j k then Some x else nth_error l j.
Proof.
  revert k j. induction l as [|a l IH]; intros k j H; [cbn in H; lia|].
  destruct k as [|k].
  - unfold list_set. cbn. destruct j as [|j]; auto.
  - change (list_set (a :: l) (S k) x) with (a :: list_set l k x). destruct j as [|j]; auto.
    cbn. apply IH. cbn in H. lia.
Qed.
Lemma length_list_set {X} (l : list X) k x : (k < length l)%nat -> length (list_set l k x) = length l.
Proof. intro H. unfold list_set. rewrite app_length, firstn_length. change (length (x :: skipn (S k) l)) with (S (length (skipn (S k) l))). rewrite skipn_length. lia. Qed.
Lemma map_list_set {X Y} (f : X -> Y) (l : list X) k x : map f (list_set l k x) = list_set (map f l) k (f x).
Proof. unfold list_set. rewrite map_app, firstn_map. change (map f (x :: skipn (S k) l)) with (f x :: map f (skipn (S k) l)). rewrite skipn_map. auto. Qed.
Lemma list_set_self {X} (l : list X) k x : nth_error l k = Some x -> list_set l k x = l.
Proof.
  revert k. induction l as [|a l IH]; intros [|k] H; cbn in H; try discriminate.
  - injection H as <-. reflexivity.
  - change (list_set (a :: l) (S k) x) with (a :: list_set l k x). rewrite IH; auto.
Qed.
Lemma nth_new {X} (l : list X) x j : nth_error (l ++ [x]) j =
  if Nat.eqb j (length l) then Some x else nth_error l j.
Proof.
  destruct (Nat.eqb_spec j (length l)) as [->|H].
  - rewrite nth_error_app2, Nat.sub_diag by lia. auto.
  - destruct (Nat.lt_ge_cases j (length l)); [rewrite nth_error_app1 by lia; auto|].
    assert (nth_error l j = None) as -> by (apply nth_error_None; lia). apply nth_error_None. rewrite app_length. cbn. lia.
Qed.

Lemma nth_error_skipn0 {X} (l : list X) k : nth_error (skipn k l) 0 = nth_error l k.
Proof. revert k. induction l as [|a l IH]; intros [|k]; auto. cbn [skipn]. rewrite IH. auto. Qed.

Section Facts.
  Context {T : Type} {N : Num T}.
  Notation V := (vec T).

  (** References are valid, and no two objects hold the same list. *)
  Definition wf (h : heap T) : Prop :=
    Forall (fun cp => (snd cp < length (lists h))%nat) (objs h) /\ NoDup (map snd (objs h)).

  Lemma wf_empty : wf empty_heap.
  Proof using Type. split; constructor. Qed.

  Lemma nth_obj_lt (h : heap T) o cp : nth_error (objs h) o = Some cp -> (o < length (objs h))%nat.
  Proof using Type. intro H. apply nth_error_Some. congruence. Qed.
  Lemma wf_ref (h : heap T) o c p : wf h -> nth_error (objs h) o = Some (c, p) -> (p < length (lists h))%nat.
  Proof using Type. intros [W _] H. apply nth_error_In in H. eapply Forall_forall in W; eauto. auto. Qed.
  Lemma wf_inj (h : heap T) o o' c c' p : wf h -> nth_error (objs h) o = Some (c, p) -> nth_error (objs h) o' = Some (c', p) -> o = o'.
  Proof using Type.
    intros [_ W] H H'. rewrite NoDup_nth_error in W. apply W.
    - rewrite map_length. eapply nth_obj_lt; eauto.
    - rewrite !nth_error_map, H, H'. auto.
  Qed.
  Lemma contents_at (h : heap T) o c p : nth_error (objs h) o = Some (c, p) -> contents h o = nth_error (lists h) p.
  Proof using Type. intro H. unfold contents, lref. rewrite H. reflexivity. Qed.
  Lemma contents_inv (h : heap T) o l : contents h o = Some l ->
    exists c p, nth_error (objs h) o = Some (c, p) /\ nth_error (lists h) p = Some l /\ class_of h o = Some c.
  Proof using Type.
    unfold contents, lref, class_of. destruct (nth_error (objs h) o) as [[c p]|]; [|discriminate]. intro H. exists c, p. auto.
  Qed.
  Lemma wf_contents (h : heap T) o : wf h -> (o < length (objs h))%nat -> exists l, contents h o = Some l.
  Proof using Type.
    intros W H. destruct (nth_error (objs h) o) as [[c p]|] eqn:Ho; [|apply nth_error_None in Ho; lia].
    rewrite (contents_at _ _ _ _ Ho). pose proof (wf_ref _ _ _ _ W Ho) as Hp.
    destruct (nth_error (lists h) p) eqn:E; [eauto|apply nth_error_None in E; lia].
  Qed.

  (** [h'] extends [h]; objects outside [X] look the same in both. *)
  Definition keeps (X : nat -> Prop) (h h' : heap T) : Prop :=
    wf h' /\ (length (objs h) <= length (objs h'))%nat /\
    forall o, (o < length (objs h))%nat -> class_of h' o = class_of h o /\ (~ X o -> contents h' o = contents h o).
  Lemma keeps_refl X h : wf h -> keeps X h h.
  Proof using Type. intro W. split; auto. Qed.
  Lemma keeps_trans X h1 h2 h3 : keeps X h1 h2 -> keeps X h2 h3 -> keeps X h1 h3.
  Proof using Type.
    intros (_ & L1 & K1) (W & L2 & K2). split; [auto|]. split; [lia|]. intros o H.
    destruct (K1 o H) as [A1 B1]. destruct (K2 o ltac:(lia)) as [A2 B2]. split; [congruence|]. intro HX. rewrite B2, B1; auto.
  Qed.
  Lemma keeps_weaken (X Y : nat -> Prop) h h' : (forall o, X o -> Y o) -> keeps X h h' -> keeps Y h h'.
  Proof using Type. intros H (W & L & K). split; [auto|]. split; [auto|]. intros o Ho. destruct (K o Ho) as [A B]. split; auto. Qed.

  Lemma new_obj_spec h c l : wf h ->
    keeps (fun _ => False) h (new_obj h c l) /\ contents (new_obj h c l) (length (objs h)) = Some l /\
    class_of (new_obj h c l) (length (objs h)) = Some c.
  Proof using Type.
    intros [W1 W2]. split; [split; [split|split]|split].
    - cbn. apply Forall_app. split.
      + eapply Forall_impl; [|exact W1]. intros a H. cbn in H. rewrite app_length. cbn [length]. lia.
      + repeat constructor. cbn. rewrite app_length. cbn. lia.
    - cbn. rewrite map_app. cbn. rewrite <- (rev_involutive (map snd (objs h) ++ _)). apply NoDup_rev. rewrite rev_app_distr. cbn. constructor.
      + rewrite <- in_rev. intro H. apply in_map_iff in H. destruct H as ([c' p] & E & H). cbn in E. rewrite Forall_forall in W1. specialize (W1 _ H). cbn in W1. lia.
      + apply NoDup_rev. auto.
    - cbn. rewrite app_length. lia.
    - intros o H. unfold class_of, contents, lref. cbn. rewrite nth_new.
      destruct (Nat.eqb_spec o (length (objs h))); [lia|]. split; auto. intros _.
      destruct (nth_error (objs h) o) as [[c' p]|] eqn:Ho; auto. cbn. rewrite nth_new.
      pose proof (wf_ref h o c' p (conj W1 W2) Ho). destruct (Nat.eqb_spec p (length (lists h))); [lia|auto].
    - unfold contents, lref. cbn. rewrite nth_new, Nat.eqb_refl. cbn. rewrite nth_new, Nat.eqb_refl. auto.
    - unfold class_of. cbn. rewrite nth_new, Nat.eqb_refl. auto.
  Qed.
  Lemma write_spec h o c p l : wf h -> nth_error (objs h) o = Some (c, p) ->
    keeps (eq o) h (write h p l) /\ contents (write h p l) o = Some l /\ nth_error (objs (write h p l)) o = Some (c, p).
  Proof using Type.
    intros W Ho. pose proof (wf_ref _ _ _ _ W Ho) as Hp. destruct W as [W1 W2].
    split; [split; [split|split]|split].
    - cbn. rewrite length_list_set; auto.
    - auto.
    - cbn. auto.
    - intros o' H. split; [reflexivity|]. intro Hn. unfold contents, lref. cbn.
      destruct (nth_error (objs h) o') as [[c' p']|] eqn:Ho'; auto. cbn. rewrite nth_list_set by auto.
      destruct (Nat.eqb_spec p' p) as [->|]; auto. exfalso. apply Hn. eapply wf_inj; eauto. split; auto.
    - unfold contents, lref. cbn. rewrite Ho. cbn. rewrite nth_list_set, Nat.eqb_refl by auto. auto.
    - auto.
  Qed.
  Lemma rebind_spec h o c p l : wf h -> nth_error (objs h) o = Some (c, p) ->
    keeps (eq o) h (rebind h o l) /\ contents (rebind h o l) o = Some l.
  Proof using Type.
    intros W Ho. pose proof (nth_obj_lt _ _ _ Ho) as HL. pose proof W as [W1 W2]. unfold rebind. rewrite Ho.
    split; [split; [split|split]|].
    - cbn. apply Forall_forall. intros [c' p'] Hin. apply In_nth_error in Hin. destruct Hin as [j Hj].
      rewrite nth_list_set in Hj by auto. rewrite app_length. cbn [length snd]. destruct (Nat.eqb j o).
      + injection Hj as <- <-. lia.
      + pose proof (wf_ref _ _ _ _ W Hj). lia.
    - cbn. rewrite map_list_set. cbn. apply NoDup_nth_error. intros i j Hi Hij.
      rewrite length_list_set in Hi by (rewrite map_length; auto). rewrite map_length in Hi.
      assert (Hx : forall k, nth_error (map snd (objs h)) k <> Some (length (lists h))).
      { intros k Hk. rewrite nth_error_map in Hk. destruct (nth_error (objs h) k) as [[c' p']|] eqn:E; [|discriminate].
        cbn in Hk. injection Hk as Hk. pose proof (wf_ref _ _ _ _ W E). lia. }
      rewrite !nth_list_set in Hij by (rewrite map_length; auto).
      destruct (Nat.eqb_spec i o) as [->|]; destruct (Nat.eqb_spec j o) as [->|]; auto.
      + exfalso. eapply Hx; eauto.
      + exfalso. eapply Hx; eauto.
      + rewrite NoDup_nth_error in W2. apply W2; auto. rewrite map_length. auto.
    - cbn. rewrite length_list_set; auto.
    - intros o' H. unfold class_of, contents, lref. cbn. rewrite nth_list_set by auto.
      destruct (Nat.eqb_spec o' o) as [->|Hne].
      + rewrite Ho. split; auto. intro Hn. exfalso; auto.
      + split; auto. intros _. destruct (nth_error (objs h) o') as [[c' p']|] eqn:Ho'; auto. cbn. rewrite nth_new.
        pose proof (wf_ref _ _ _ _ W Ho'). destruct (Nat.eqb_spec p' (length (lists h))); [lia|auto].
    - unfold contents, lref. cbn. rewrite nth_list_set, Nat.eqb_refl by auto. cbn. rewrite nth_new, Nat.eqb_refl. auto.
  Qed.

  Lemma extend_loop_keeps fuel : forall h o c p s k, wf h -> nth_error (objs h) o = Some (c, p) ->
    keeps (eq o) h (snd (extend_loop fuel h p s k)).
  Proof using Type.
    induction fuel as [|f IH]; intros h o c p s k W Ho; cbn [extend_loop snd]; [apply keeps_refl; auto|].
    destruct (next_item h s k) as [x|]; [|apply keeps_refl; auto].
    destruct (convert x) as [v|e]; [|apply keeps_refl; auto].
    destruct (nth_error (lists h) p) as [l|] eqn:E; [|apply keeps_refl; auto].
    destruct (write_spec h o c p (l ++ [v]) W Ho) as (K & _ & Ho'). eapply keeps_trans; [exact K|].
    eapply IH; eauto. apply K.
  Qed.
  Lemma itransform_loop_keeps n : forall h o c p m k, wf h -> nth_error (objs h) o = Some (c, p) ->
    keeps (eq o) h (itransform_loop n h p m k).
  Proof using Type.
    induction n as [|n IH]; intros h o c p m k W Ho; cbn [itransform_loop]; [apply keeps_refl; auto|].
    destruct (nth_error (lists h) p) as [l|] eqn:E; [|apply keeps_refl; auto].
    destruct (nth_error l k) as [v|]; [|apply keeps_refl; auto].
    destruct (write_spec h o c p (list_set l k (vec2_of (aapply m v))) W Ho) as (K & _ & Ho'). eapply keeps_trans; [exact K|].
    eapply IH; eauto. apply K.
  Qed.
  Lemma result_keeps h c r X : wf h -> keeps X h (snd (result h c r)).
  Proof using Type.
    intro W. destruct r; cbn; [|apply keeps_refl; auto]. eapply keeps_weaken; [|apply new_obj_spec; auto]. contradiction.
  Qed.

  Lemma exec_keeps fuel h s : wf h -> keeps (fun o => target s = Some o) h (snd (exec fuel h s)).
  Proof using Type.
    intro W.
    assert (WO : forall o k X, (forall c p l, nth_error (objs h) o = Some (c, p) -> nth_error (lists h) p = Some l -> keeps X h (snd (k c p l))) ->
       keeps X h (snd (with_obj h o k))).
    { intros o k X H. unfold with_obj. destruct (nth_error (objs h) o) as [[c p]|]; [|apply keeps_refl; auto].
      destruct (nth_error (lists h) p) eqn:E; [eapply H; eauto|apply keeps_refl; auto]. }
    assert (AO : forall c e r X, keeps X h (snd r) -> keeps X h (snd (array_only h c e r))).
    { intros c e r X H. destruct c; cbn; auto. apply keeps_refl; auto. }
    assert (MU : forall o c p r, nth_error (objs h) o = Some (c, p) -> keeps (fun o' => Some o = Some o') h (snd (mutate h p r))).
    { intros o c p r Ho. destruct r; cbn; [|apply keeps_refl; auto].
      eapply keeps_weaken; [|eapply write_spec; eauto]. intros ? ->. auto. }
    assert (AS : forall o c p r, nth_error (objs h) o = Some (c, p) -> keeps (fun o' => Some o = Some o') h (snd (assign h o r))).
    { intros o c p r Ho. destruct r; cbn; [|apply keeps_refl; auto].
      eapply keeps_weaken; [|eapply rebind_spec; eauto]. intros ? ->. auto. }
    assert (BS : forall k l x X, keeps X h (snd (binary_seq h k l x))).
    { intros k l x X. unfold binary_seq. destruct (operand_val h x) as [[[|] [m|v|s']]|]; destruct x; try (apply keeps_refl; auto).
      apply result_keeps; auto. }
    destruct s; cbn [exec target]; try (apply WO; intros cl p ls Ho Hl); repeat apply AO;
      try (apply result_keeps; auto); try (eapply MU; eauto; fail); try (eapply AS; eauto; fail).
    - eapply keeps_weaken; [|eapply extend_loop_keeps; eauto]. intros ? ->. auto.
    - destruct (operand_val h x) as [[c' y]|]; [|apply keeps_refl; auto]. destruct cl; [apply BS|].
      destruct (accepts true k c'); [eapply AS; eauto|apply keeps_refl; auto].
    - destruct (operand_val h x) as [[c' y]|]; [|apply keeps_refl; auto]. destruct cl; [apply BS|].
      destruct (accepts false k c'); [apply result_keeps; auto|apply keeps_refl; auto].
    - cbn [snd]. destruct (affine_eqb m aidentity); [apply keeps_refl; auto|].
      eapply keeps_weaken; [|eapply itransform_loop_keeps; eauto]. intros ? ->. auto.
  Qed.
  Lemma run_wf fuel ss : forall h, wf h -> wf (run fuel h ss).
  Proof using Type.
    induction ss as [|s ss IH]; intros h W; cbn; auto. apply IH. apply (exec_keeps fuel h s W).
  Qed.
  Lemma run_keeps fuel ss : forall h, wf h -> keeps (fun o => exists s, In s ss /\ target s = Some o) h (run fuel h ss).
  Proof using Type.
    induction ss as [|s ss IH]; intros h W; cbn [run]; [apply keeps_refl; auto|].
    pose proof (exec_keeps fuel h s W) as K. eapply keeps_trans.
    - eapply keeps_weaken; [|exact K]. cbn. intros o H. exists s. auto.
    - eapply keeps_weaken; [|apply IH; apply K]. intros o (s' & Hs & Ht). exists s'. split; [right|]; auto.
  Qed.

  (** *** Values *)
  Definition src_items (h : heap T) (s : src T) : list (res V) :=
    match s with
    | SObj o => match contents h o with Some l => map Ok l | None => [] end
    | SIter l => l
    end.
  Lemma next_item_items h s k : next_item h s k = nth_error (src_items h s) k.
  Proof using Type.
    destruct s as [o|l]; cbn; auto. destruct (contents h o) as [l|]; [|destruct k; auto].
    rewrite nth_error_map. auto.
  Qed.
  Lemma src_items_keeps h h' o s : keeps (eq o) h h' -> s <> SObj o ->
    (forall o', s = SObj o' -> (o' < length (objs h))%nat) -> src_items h' s = src_items h s.
  Proof using Type.
    intros (_ & _ & K) Hs Hv. destruct s as [o'|l]; cbn; auto. destruct (K o' (Hv o' eq_refl)) as [_ B].
    rewrite B; auto.
  Qed.
  (** Items before the first failing one are appended. *)
  Lemma extend_loop_spec vs : forall fuel h o c p s k l (fin : option exn) tail, wf h -> nth_error (objs h) o = Some (c, p) ->
    nth_error (lists h) p = Some l -> s <> SObj o -> (forall o', s = SObj o' -> (o' < length (objs h))%nat) ->
    skipn k (src_items h s) = map Ok vs ++ match fin with None => [] | Some e => Err e :: tail end ->
    (length vs < fuel)%nat ->
    exists h', extend_loop fuel h p s k = (match fin with None => Ok tt | Some e => Err e end, h') /\
      contents h' o = Some (l ++ map vec2_of vs).
  Proof using Type.
    induction vs as [|v vs IH]; intros fuel h o c p s k l fin tail W Ho Hl Hs Hv Hk Hf; (destruct fuel as [|f]; [lia|]).
    - cbn [extend_loop]. rewrite next_item_items.
      assert (nth_error (src_items h s) k = nth_error (skipn k (src_items h s)) 0) as ->.
      { rewrite nth_error_skipn0. auto. }
      rewrite Hk. exists h. rewrite (contents_at _ _ _ _ Ho), Hl. cbn [map]. rewrite app_nil_r.
      destruct fin; cbn; auto.
    - cbn [extend_loop]. rewrite next_item_items.
      assert (nth_error (src_items h s) k = nth_error (skipn k (src_items h s)) 0) as ->.
      { rewrite nth_error_skipn0. auto. }
      rewrite Hk. cbn [map app nth_error convert rmap]. rewrite Hl.
      destruct (write_spec h o c p (l ++ [vec2_of v]) W Ho) as (K & Hc & Ho').
      assert (Hl' : nth_error (lists (write h p (l ++ [vec2_of v]))) p = Some (l ++ [vec2_of v])) by (rewrite <- (contents_at _ _ _ _ Ho'); auto).
      destruct (IH f (write h p (l ++ [vec2_of v])) o c p s (S k) (l ++ [vec2_of v]) fin tail) as (h' & E1 & E2); auto.
      + apply K.
      + rewrite (src_items_keeps _ _ _ _ K Hs Hv). apply (f_equal (@tl _)) in Hk. cbn [map app tl] in Hk. rewrite <- Hk.
        clear. revert k. generalize (src_items h s) as L. induction L as [|a L IH]; intros [|k]; auto. cbn [skipn tl]. rewrite <- IH. auto.
      + cbn in Hf. lia.
      + exists h'. split; auto. rewrite E2, <- app_assoc. auto.
  Qed.
  Lemma self_extend fuel : forall h o c p k l, wf h -> nth_error (objs h) o = Some (c, p) ->
    nth_error (lists h) p = Some l -> (k < length l)%nat ->
    exists h' l', extend_loop fuel h p (SObj o) k = (Err OutOfFuel, h') /\ contents h' o = Some l' /\ length l' = (length l + fuel)%nat.
  Proof using Type.
    induction fuel as [|f IH]; intros h o c p k l W Ho Hl Hk.
    - exists h, l. cbn. rewrite (contents_at _ _ _ _ Ho), Hl. repeat split; auto.
    - cbn [extend_loop next_item]. rewrite (contents_at _ _ _ _ Ho), Hl.
      destruct (nth_error l k) as [v|] eqn:E; [|apply nth_error_None in E; lia]. cbn [option_map convert rmap].
      destruct (write_spec h o c p (l ++ [vec2_of v]) W Ho) as (K & Hc & Ho').
      assert (Hl' : nth_error (lists (write h p (l ++ [vec2_of v]))) p = Some (l ++ [vec2_of v])) by (rewrite <- (contents_at _ _ _ _ Ho'); auto).
      destruct (IH _ o c p (S k) _ (proj1 K) Ho' Hl') as (h' & l' & E1 & E2 & E3); [rewrite app_length; cbn; lia|].
      exists h', l'. split; [auto|]. split; [auto|]. rewrite E3, app_length. cbn. lia.
  Qed.
  Lemma itransform_loop_spec m : forall (done rest : list V) h o c p, wf h -> nth_error (objs h) o = Some (c, p) ->
    nth_error (lists h) p = Some (done ++ rest) ->
    contents (itransform_loop (length rest) h p m (length done)) o = Some (done ++ map (fun v => vec2_of (aapply m v)) rest).
  Proof using Type.
    intros done rest. revert done. induction rest as [|v rest IH]; intros done h o c p W Ho Hl.
    - cbn. rewrite (contents_at _ _ _ _ Ho), Hl. auto.
    - cbn [length itransform_loop]. rewrite Hl. rewrite nth_error_app2, Nat.sub_diag by lia. cbn [nth_error].
      set (w := vec2_of (aapply m v)).
      assert (E : list_set (done ++ v :: rest) (length done) w = (done ++ [w]) ++ rest).
      { unfold list_set. rewrite firstn_app, firstn_all, Nat.sub_diag. cbn [firstn]. rewrite app_nil_r.
        rewrite skipn_app, skipn_all2 by lia. replace (S (length done) - length done)%nat with 1%nat by lia. cbn. rewrite <- app_assoc. auto. }
      rewrite E. destruct (write_spec h o c p ((done ++ [w]) ++ rest) W Ho) as (K & Hc & Ho').
      pose proof (IH (done ++ [w]) (write h p ((done ++ [w]) ++ rest)) o c p (proj1 K) Ho') as G.
      rewrite app_length in G. cbn [length] in G. replace (S (length done)) with (length done + 1)%nat by lia. rewrite G.
      + rewrite <- app_assoc. auto.
      + rewrite <- (contents_at _ _ _ _ Ho'). auto.
  Qed.
End Facts.
