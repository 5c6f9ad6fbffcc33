(** * Lemmas about sequences *)
From Coq Require Import ZArith List Bool Reals Lra Lia Psatz.
From Verif Require Import Num Vec Affine Seq RBase VecFacts VecFacts2 SpecGeom SpecSeq.
Import ListNotations.

Lemma skipn_skipn' {X} (l : list X) (a b : nat) : skipn a (skipn b l) = skipn (b + a) l.
Proof.
  revert l. induction b as [|b IH]; intro l; auto. destruct l as [|x l]; cbn; auto.
  apply skipn_nil.
Qed.

Section Lists.
  Context {X : Type}.
  Implicit Types l : list X.

  Lemma py_index_some n i k : py_index n i = Some k ->
    (k < n)%nat /\ (i = Z.of_nat k \/ i = Z.of_nat k - Z.of_nat n)%Z.
  Proof.
    unfold py_index. destruct (i <? 0)%Z eqn:Hi;
    match goal with |- (if ?c then _ else _) = _ -> _ => destruct c eqn:Hc end; try discriminate;
    intro H; injection H; intros <-; lia.
  Qed.
  Lemma py_index_none n i : py_index n i = None ->
    (i < - Z.of_nat n \/ Z.of_nat n <= i)%Z.
  Proof.
    unfold py_index. destruct (i <? 0)%Z eqn:Hi;
    match goal with |- (if ?c then _ else _) = _ -> _ => destruct c eqn:Hc end; try discriminate; lia.
  Qed.
  Lemma split_at l k x : nth_error l k = Some x -> l = firstn k l ++ x :: skipn (S k) l.
  Proof.
    revert k. induction l as [|a l IH]; intros [|k]; cbn; try discriminate.
    - congruence.
    - intro H. f_equal. apply IH; auto.
  Qed.
  Lemma nth_some l k : (k < length l)%nat -> exists x, nth_error l k = Some x.
  Proof. intro H. apply nth_error_Some in H. destruct (nth_error l k); [eauto|congruence]. Qed.

  Lemma index_split l i k : py_index (length l) i = Some k ->
    exists x, nth_error l k = Some x /\ addresses l i (firstn k l) x (skipn (S k) l).
  Proof.
    intro H. apply py_index_some in H. destruct H as [Hk Hi].
    destruct (nth_some l k Hk) as [x Hx]. exists x. split; auto. split.
    - apply split_at; auto.
    - rewrite firstn_length_le, skipn_length by lia. lia.
  Qed.

  Lemma py_get_spec l i :
    (exists pre x post, addresses l i pre x post /\ py_get l i = Ok x) \/
    (bad_index l i /\ py_get l i = Err IndexError).
  Proof.
    unfold py_get. destruct (py_index (length l) i) as [k|] eqn:H.
    - left. destruct (index_split _ _ _ H) as (x & Hx & Ha). rewrite Hx. eauto 6.
    - right. split; auto. apply py_index_none; auto.
  Qed.
  Lemma py_set_spec l i v :
    (exists pre x post, addresses l i pre x post /\ py_set l i v = Ok (pre ++ v :: post)) \/
    (bad_index l i /\ py_set l i v = Err IndexError).
  Proof.
    unfold py_set. destruct (py_index (length l) i) as [k|] eqn:H.
    - left. destruct (index_split _ _ _ H) as (x & Hx & Ha). unfold list_set. eauto 6.
    - right. split; auto. apply py_index_none; auto.
  Qed.
  Lemma py_del_spec l i :
    (exists pre x post, addresses l i pre x post /\ py_del l i = Ok (pre ++ post)) \/
    (bad_index l i /\ py_del l i = Err IndexError).
  Proof.
    unfold py_del. destruct (py_index (length l) i) as [k|] eqn:H.
    - left. destruct (index_split _ _ _ H) as (x & Hx & Ha). eauto 6.
    - right. split; auto. apply py_index_none; auto.
  Qed.
  Lemma py_clamp_cut n i : cut_at n i (py_clamp n i) /\ (py_clamp n i <= n)%nat.
  Proof.
    unfold py_clamp, cut_at. destruct (i <? 0)%Z eqn:Hi.
    - destruct (i + Z.of_nat n <? 0)%Z eqn:H1; [lia|].
      destruct (Z.of_nat n <? i + Z.of_nat n)%Z eqn:H2; lia.
    - destruct (i <? 0)%Z eqn:H1; [lia|].
      destruct (Z.of_nat n <? i)%Z eqn:H2; lia.
  Qed.
  Lemma py_insert_spec l i v :
    exists pre post, l = pre ++ post /\ cut_at (length l) i (length pre) /\ py_insert l i v = pre ++ v :: post.
  Proof.
    unfold py_insert. destruct (py_clamp_cut (length l) i) as [H1 H2].
    do 2 eexists. split; [|split; [|reflexivity]].
    - symmetry; apply firstn_skipn.
    - rewrite firstn_length_le; auto.
  Qed.
  Lemma slice_spec l a b new :
    exists pre mid post, sliced l a b pre mid post /\
      py_getslice l a b = mid /\ py_setslice l a b new = pre ++ new ++ post.
  Proof.
    unfold py_getslice, py_setslice, slice_bounds.
    set (s := match a with Some i => py_clamp (length l) i | None => 0%nat end).
    set (e := match b with Some i => py_clamp (length l) i | None => length l end).
    assert (Hs : cut_opt (length l) 0 a s /\ (s <= length l)%nat).
    { unfold s; destruct a; cbn [cut_opt]; [apply py_clamp_cut|lia]. }
    assert (He : cut_opt (length l) (length l) b e /\ (e <= length l)%nat).
    { unfold e; destruct b; cbn [cut_opt]; [apply py_clamp_cut|lia]. }
    destruct Hs as [Hs Hs2], He as [He He2].
    exists (firstn s l), (firstn (Nat.max s e - s) (skipn s l)), (skipn (Nat.max s e) l).
    repeat split.
    - replace (skipn (Nat.max s e) l) with (skipn (Nat.max s e - s) (skipn s l)).
      + rewrite firstn_skipn, firstn_skipn; auto.
      + rewrite skipn_skipn'. f_equal; lia.
    - rewrite firstn_length_le by lia; auto.
    - exists e. split; auto. rewrite !firstn_length, skipn_length. lia.
  Qed.
End Lists.

(** mapM *)
Lemma mapM_ok {A B} (f : A -> res B) (l : list A) (r : list B) : mapM f l = Ok r <->
  elementwise1 (fun a b => f a = Ok b) l r.
Proof.
  unfold elementwise1. split.
  - revert r. induction l as [|a l IH]; intros r; cbn.
    + intro H; injection H; intros <-. split; auto. intros [|k]; discriminate.
    + destruct (f a) as [b|e] eqn:Hf; cbn; [|discriminate].
      destruct (mapM f l) as [bs|e]; cbn; [|discriminate].
      intro H; injection H; intros <-. destruct (IH bs eq_refl) as [H1 H2].
      split; [cbn; lia|]. intros [|k] x; cbn; auto.
      intro Hx; injection Hx; intros <-; eauto.
  - revert r. induction l as [|a l IH]; intros r [H1 H2]; cbn.
    + destruct r; auto; discriminate.
    + destruct r as [|b r]; [discriminate|].
      destruct (H2 0%nat a eq_refl) as (c & Hc & Hf). cbn in Hc. injection Hc; intros <-.
      rewrite Hf; cbn. rewrite (IH r); auto. split; [cbn in H1; lia|].
      intros k x Hx. exact (H2 (S k) x Hx).
Qed.
Lemma mapM_err {A B} (f : A -> res B) (l : list A) e : mapM f l = Err e ->
  exists k a, nth_error l k = Some a /\ f a = Err e.
Proof.
  induction l as [|a l IH]; cbn; [discriminate|].
  destruct (f a) as [b|e'] eqn:Hf; cbn.
  - destruct (mapM f l) as [bs|e'']; cbn; [discriminate|].
    intro H. destruct IH as (k & x & H1 & H2); auto. exists (S k), x; auto.
  - intro H; injection H; intros <-. exists 0%nat, a; auto.
Qed.
Lemma map_elementwise1 {A B} (f : A -> B) (l : list A) : elementwise1 (fun a b => b = f a) l (map f l).
Proof.
  split; [rewrite map_length; auto|]. intros k a H. exists (f a). split; auto.
  apply map_nth_error; auto.
Qed.
Lemma nth_combine {A B} (l : list A) (m : list B) k a b :
  nth_error l k = Some a -> nth_error m k = Some b -> nth_error (combine l m) k = Some (a, b).
Proof.
  revert m k. induction l as [|x l IH]; intros [|y m] [|k]; cbn; try discriminate; auto.
  congruence.
Qed.

Section Gen.
  Context {T : Type} {N : Num T}.
  Notation V := (vec T).

  (** The shape of every binary array operation. *)
  Lemma zip_with_spec (f : V -> V -> res V) (l m : list V) :
    (length l <> length m -> zip_with f l m = Err ValueError) /\
    (forall r, zip_with f l m = Ok r -> elementwise (fun a b c => f a b = Ok c) l m r) /\
    (forall e, zip_with f l m = Err e -> length l = length m ->
       exists k a b, nth_error l k = Some a /\ nth_error m k = Some b /\ f a b = Err e).
  Proof.
    unfold zip_with. destruct (Nat.eqb_spec (length l) (length m)) as [He|He].
    - split; [congruence|]. split.
      + intros r H. apply mapM_ok in H. destruct H as [H1 H2].
        rewrite combine_length, He, Nat.min_id in H1. unfold elementwise. repeat split; try lia.
        intros k a b Ha Hb. destruct (H2 k (a, b)) as (c & Hc & Hf); eauto.
        apply nth_combine; auto.
      + intros e H _. apply mapM_err in H. destruct H as (k & [a b] & H1 & H2). cbn in H2.
        exists k, a, b. assert (Hlt : (k < length (combine l m))%nat) by (apply nth_error_Some; congruence).
        rewrite combine_length, He, Nat.min_id in Hlt.
        destruct (nth_some l k) as [a' Ha']; [lia|]. destruct (nth_some m k) as [b' Hb']; [lia|].
        pose proof (nth_combine _ _ _ _ _ Ha' Hb'). rewrite H in H1. injection H1; intros; subst; auto.
    - split; auto. split; [discriminate | congruence].
  Qed.
  Lemma zip_total (f : V -> V -> V) (l m : list V) : length l = length m ->
    exists r, zip_with (fun a b => Ok (f a b)) l m = Ok r /\ elementwise (fun a b c => c = f a b) l m r.
  Proof.
    intro H. destruct (zip_with (fun a b => Ok (f a b)) l m) as [r|e] eqn:Hz.
    - exists r; split; auto. apply zip_with_spec in Hz. destruct Hz as (H1 & H2 & H3).
      repeat split; auto. intros k a b Ha Hb. destruct (H3 k a b Ha Hb) as (c & Hc & Hf).
      exists c; split; auto. congruence.
    - exfalso. apply zip_with_spec in Hz; auto. destruct Hz as (k & a & b & _ & _ & Hf). discriminate.
  Qed.

  Lemma pydiv_ok (a b q : T) : pydiv a b = Ok q <-> (b =? n0)%num = false /\ q = ndiv a b.
  Proof. unfold pydiv. destruct (b =? n0)%num; split; intros H; try (destruct H; discriminate); try discriminate.
    - injection H; auto. - destruct H; subst; auto. Qed.
  Lemma pyfloordiv_ok (a b q : T) : pyfloordiv a b = Ok q <-> (b =? n0)%num = false /\ q = nfloordiv a b.
  Proof. unfold pyfloordiv. destruct (b =? n0)%num; split; intros H; try (destruct H; discriminate); try discriminate.
    - injection H; auto. - destruct H; subst; auto. Qed.

  Lemma vdiv_spec (a b : V) :
    (forall c, vdiv a b = Ok c <-> (vx b =? n0)%num = false /\ (vy b =? n0)%num = false /\
                               c = mkV (ndiv (vx a) (vx b)) (ndiv (vy a) (vy b))) /\
    (forall e, vdiv a b = Err e -> e = ZeroDivisionError /\ ((vx b =? n0)%num = true \/ (vy b =? n0)%num = true)).
  Proof.
    unfold vdiv, pydiv. destruct (vx b =? n0)%num, (vy b =? n0)%num; cbn; split; intros; try split; intros;
      repeat match goal with H : _ /\ _ |- _ => destruct H end; try discriminate; try congruence; auto.
    injection H; auto.
  Qed.
  Lemma vfdiv_spec (a b : V) :
    (forall c, vfdiv a b = Ok c <-> (vx b =? n0)%num = false /\ (vy b =? n0)%num = false /\
                               c = mkV (nfloordiv (vx a) (vx b)) (nfloordiv (vy a) (vy b))) /\
    (forall e, vfdiv a b = Err e -> e = ZeroDivisionError /\ ((vx b =? n0)%num = true \/ (vy b =? n0)%num = true)).
  Proof.
    unfold vfdiv, pyfloordiv. destruct (vx b =? n0)%num, (vy b =? n0)%num; cbn; split; intros; try split; intros;
      repeat match goal with H : _ /\ _ |- _ => destruct H end; try discriminate; try congruence; auto.
    injection H; auto.
  Qed.
  Lemma vdivs_vdiv (a : V) s : vdivs a s = vdiv a (mkV s s). Proof. reflexivity. Qed.
  Lemma vfdivs_vfdiv (a : V) s : vfdivs a s = vfdiv a (mkV s s). Proof. reflexivity. Qed.

  (** ** C13 *)
  Lemma conv_map l : map vec2_of l = conv l. Proof. reflexivity. Qed.

  Lemma arr_exec_spec (l : list V) (v : V) (vs : list V) (i : Z) (a b : option Z) :
    let w := mkV (vx v * n1)%num (vy v * n1)%num in
    let ws := map (fun v => mkV (vx v * n1)%num (vy v * n1)%num) vs in
    seq_new vs = ws /\
    arr_exec l (OpAppend v) = Ok (l ++ [w]) /\
    arr_exec l (OpExtend vs) = Ok (l ++ ws) /\
    (exists pre post, l = pre ++ post /\ cut_at (length l) i (length pre) /\
       arr_exec l (OpInsert i v) = Ok (pre ++ w :: post)) /\
    ((exists pre x post, addresses l i pre x post /\ py_get l i = Ok x /\
        arr_exec l (OpSet i v) = Ok (pre ++ w :: post) /\ arr_exec l (OpDel i) = Ok (pre ++ post)) \/
     (bad_index l i /\ py_get l i = Err IndexError /\
      arr_exec l (OpSet i v) = Err IndexError /\ arr_exec l (OpDel i) = Err IndexError /\
      arr_step l (OpSet i v) = l /\ arr_step l (OpDel i) = l)) /\
    (exists pre mid post, sliced l a b pre mid post /\ py_getslice l a b = mid /\
       arr_exec l (OpSetSlice a b vs) = Ok (pre ++ ws ++ post) /\
       arr_exec l (OpDelSlice a b) = Ok (pre ++ post)).
  Proof.
    cbv zeta. repeat split.
    - destruct (py_insert_spec l i (vec2_of v)) as (pre & post & H1 & H2 & H3).
      exists pre, post. repeat split; auto. cbn. rewrite H3. reflexivity.
    - unfold arr_step. cbn [arr_exec].
      unfold py_get, py_set, py_del.
      destruct (py_index (length l) i) as [k|] eqn:H.
      + left. destruct (index_split _ _ _ H) as (x & Hx & Ha). rewrite Hx. unfold list_set.
        do 3 eexists. split; [eauto|]. repeat split; reflexivity.
      + right. repeat split; auto. apply py_index_none; auto.
    - destruct (slice_spec l a b (map vec2_of vs)) as (pre & mid & post & H1 & H2 & H3).
      destruct (slice_spec l a b []) as (pre' & mid' & post' & H1' & H2' & H3').
      assert (pre' = pre /\ post' = post) as [-> ->].
      { unfold py_setslice in H3, H3'. unfold py_getslice in H2, H2'.
        destruct H1 as (E1 & C1 & e & C2 & L), H1' as (E1' & C1' & e' & C2' & L').
        assert (Hp : length pre = length pre').
        { destruct a; cbn in C1, C1'; [unfold cut_at in *; lia | congruence]. }
        assert (Hm : e = e').
        { destruct b; cbn in C2, C2'; [unfold cut_at in *; lia | congruence]. }
        subst e'. rewrite <- Hp in L'.
        assert (Hpp : pre = pre').
        { rewrite E1 in E1'.
          apply (f_equal (firstn (length pre))) in E1'.
          rewrite firstn_app, firstn_all, Nat.sub_diag in E1'. cbn in E1'. rewrite app_nil_r in E1'.
          rewrite Hp, firstn_app, firstn_all, Nat.sub_diag in E1'. cbn in E1'. rewrite app_nil_r in E1'. auto. }
        subst pre'. rewrite E1 in E1'. apply app_inv_head in E1'.
        split; auto.
        apply (f_equal (skipn (length mid))) in E1'.
        rewrite skipn_app, skipn_all, Nat.sub_diag in E1'. cbn in E1'.
        replace (length mid) with (length mid') in E1' by lia.
        rewrite skipn_app, skipn_all, Nat.sub_diag in E1'. cbn in E1'. auto. }
      exists pre, mid, post. repeat split; try apply H1; auto; cbn; f_equal; auto.
  Qed.

  Lemma addresses_unique {X} (l : list X) i pre x post pre' x' post' :
    addresses l i pre x post -> addresses l i pre' x' post' -> pre = pre' /\ x = x' /\ post = post'.
  Proof.
    intros [H1 H2] [H1' H2'].
    assert (Hp : length pre = length pre').
    { pose proof (f_equal (@length X) H1) as E. pose proof (f_equal (@length X) H1') as E'.
      rewrite app_length in E, E'; cbn in E, E'. lia. }
    rewrite H1 in H1'. clear H1 H2 H2'. revert pre' Hp H1'.
    induction pre as [|y pre IH]; intros [|y' pre'] Hp H; try discriminate; cbn in H.
    - injection H; auto.
    - injection H; intros Ht Hy. destruct (IH pre') as (-> & -> & ->); auto. subst; auto.
  Qed.
  Lemma addresses_good {X} (l : list X) i pre x post : addresses l i pre x post -> ~ bad_index l i.
  Proof.
    intros [H1 H2] H3. unfold bad_index in H3. pose proof (f_equal (@length X) H1) as E.
    rewrite app_length in E; cbn in E. lia.
  Qed.
  Lemma cut_at_unique n i k k' : cut_at n i k -> cut_at n i k' -> k = k'.
  Proof. unfold cut_at; lia. Qed.
  Lemma cut_opt_unique n d i k k' : cut_opt n d i k -> cut_opt n d i k' -> k = k'.
  Proof. destruct i; cbn; [apply cut_at_unique | congruence]. Qed.
  Lemma app_same_length {X} (a b c d : list X) : a ++ b = c ++ d -> length a = length c -> a = c /\ b = d.
  Proof.
    revert c. induction a as [|x a IH]; intros [|y c] H Hl; try discriminate; cbn in *; auto.
    injection H; intros Ht Hx. destruct (IH c Ht) as [-> ->]; auto. subst; auto.
  Qed.
  Lemma sliced_unique {X} (l : list X) a b p m s p' m' s' :
    sliced l a b p m s -> sliced l a b p' m' s' -> p = p' /\ m = m' /\ s = s'.
  Proof.
    intros (E1 & C1 & e & C2 & L) (E1' & C1' & e' & C2' & L').
    pose proof (cut_opt_unique _ _ _ _ _ C1 C1') as Hp.
    pose proof (cut_opt_unique _ _ _ _ _ C2 C2') as He. subst e'.
    rewrite E1 in E1'. apply app_same_length in E1'; auto. destruct E1' as [-> E].
    apply app_same_length in E; [tauto | lia].
  Qed.

  Lemma arr_step_ref (l : list V) (o : arr_op T) (l' : list V) : list_op o ->
    (arr_step l o = l' <-> ref_step l o l').
  Proof.
    intro Ho. split.
    - intros <-. unfold arr_step. destruct o; try contradiction; cbn [arr_exec].
      + apply RS_append.
      + apply RS_extend.
      + destruct (py_insert_spec l i (vec2_of v)) as (pre & post & H1 & H2 & ->).
        apply (RS_insert l i v pre post); auto.
      + destruct (py_set_spec l i (vec2_of v)) as [(pre & x & post & H1 & ->)|[H1 ->]].
        * apply (RS_set l i v pre x post); auto.
        * apply RS_set_bad; auto.
      + destruct (slice_spec l a b (map vec2_of vs)) as (pre & mid & post & H1 & _ & ->).
        apply (RS_setslice l a b vs pre mid post); auto.
      + destruct (py_del_spec l i) as [(pre & x & post & H1 & ->)|[H1 ->]].
        * eapply RS_del; eauto.
        * apply RS_del_bad; auto.
      + destruct (slice_spec l a b []) as (pre & mid & post & H1 & _ & ->).
        cbn. eapply RS_delslice; eauto.
    - intro H. unfold arr_step. destruct H; cbn [arr_exec]; auto.
      + destruct (py_insert_spec l i (vec2_of v)) as (pre' & post' & H1 & H2 & ->).
        pose proof (cut_at_unique _ _ _ _ H0 H2) as Hl. rewrite H in H1.
        apply app_same_length in H1; auto. destruct H1 as [-> ->]. reflexivity.
      + destruct (py_set_spec l i (vec2_of v)) as [(pre' & x' & post' & H1 & ->)|[H1 ->]].
        * destruct (addresses_unique _ _ _ _ _ _ _ _ H H1) as (-> & -> & ->). reflexivity.
        * exfalso; eapply addresses_good; eauto.
      + destruct (py_set_spec l i (vec2_of v)) as [(pre' & x' & post' & H1 & ->)|[H1 ->]]; auto.
        exfalso; eapply addresses_good; eauto.
      + destruct (py_del_spec l i) as [(pre' & x' & post' & H1 & ->)|[H1 ->]].
        * destruct (addresses_unique _ _ _ _ _ _ _ _ H H1) as (-> & -> & ->). reflexivity.
        * exfalso; eapply addresses_good; eauto.
      + destruct (py_del_spec l i) as [(pre' & x' & post' & H1 & ->)|[H1 ->]]; auto.
        exfalso; eapply addresses_good; eauto.
      + destruct (slice_spec l a b (map vec2_of vs)) as (pre' & mid' & post' & H1 & _ & ->).
        destruct (sliced_unique _ _ _ _ _ _ _ _ _ H H1) as (-> & -> & ->). reflexivity.
      + destruct (slice_spec l a b []) as (pre' & mid' & post' & H1 & _ & ->).
        destruct (sliced_unique _ _ _ _ _ _ _ _ _ H H1) as (-> & -> & ->). reflexivity.
  Qed.
  Lemma arr_run_ref (os : list (arr_op T)) : Forall list_op os -> forall l l',
    (arr_run l os = l' <-> ref_run l os l').
  Proof.
    induction 1 as [|o os Ho Hos IH]; intros l l'.
    - cbn. split; [intros <-; constructor | intro H; inversion H; auto].
    - cbn. split.
      + intro H. econstructor; [apply arr_step_ref; eauto | apply IH; auto].
      + intro H. inversion H; subst. apply IH. apply arr_step_ref in H3; auto. rewrite H3. auto.
  Qed.

  (** ** C14 *)
  Lemma elementwise1_map {A B} (P : A -> B -> Prop) (f : A -> B) (l : list A) :
    (forall a, P a (f a)) -> elementwise1 P l (map f l).
  Proof.
    intro H. split; [rewrite map_length; auto|]. intros k a Ha. exists (f a).
    split; [apply map_nth_error; auto | auto].
  Qed.
  Lemma elementwise1_impl {A B} (P Q : A -> B -> Prop) l r :
    (forall a b, P a b -> Q a b) -> elementwise1 P l r -> elementwise1 Q l r.
  Proof.
    intros H [H1 H2]. split; auto. intros k a Ha. destruct (H2 k a Ha) as (c & Hc & Hp). eauto.
  Qed.
  Lemma elementwise_impl {A B C} (P Q : A -> B -> C -> Prop) l m r :
    (forall a b c, P a b c -> Q a b c) -> elementwise P l m r -> elementwise Q l m r.
  Proof.
    intros H (H1 & H2 & H3). repeat split; auto. intros k a b Ha Hb.
    destruct (H3 k a b Ha Hb) as (c & Hc & Hp). eauto.
  Qed.

  (** Meaning of an arithmetic operation: total componentwise function f. *)
  Lemma arith_total (f : T -> T -> T) (op : list V -> arr_operand T -> res (list V)) (g : V -> V -> V)
    (l m : list V) :
    (forall a b, g a b = mkV (f (vx a) (vx b)) (f (vy a) (vy b))) ->
    op l (OSeq m) = zip_with (fun a b => Ok (g a b)) l m ->
    (length l = length m -> exists r, op l (OSeq m) = Ok r /\
       elementwise (fun a b c => c = mkV (f (vx a) (vx b)) (f (vy a) (vy b))) l m r) /\
    (length l <> length m -> op l (OSeq m) = Err ValueError).
  Proof.
    intros Hg ->. split; intro H.
    - destruct (zip_total g l m H) as (r & H1 & H2). exists r; split; auto.
      eapply elementwise_impl; [|eauto]. cbv beta; intros a b c ->; auto.
    - apply zip_with_spec; auto.
  Qed.

  Lemma add_total : total_arith nadd arr_add.
  Proof.
    intros l m v. destruct (arith_total nadd arr_add vadd l m) as [H1 H2]; auto.
    split; auto. split; auto. eexists; split; [reflexivity|]. apply elementwise1_map. auto.
  Qed.
  Lemma sub_total : total_arith nsub arr_sub.
  Proof.
    intros l m v. destruct (arith_total nsub arr_sub vsub l m) as [H1 H2]; auto.
    split; auto. split; auto. eexists; split; [reflexivity|]. apply elementwise1_map. auto.
  Qed.
  Lemma mul_total : total_arith nmul arr_mul.
  Proof.
    intros l m v. destruct (arith_total nmul arr_mul vmul l m) as [H1 H2]; auto.
    split; auto. split; auto. eexists; split; [reflexivity|]. apply elementwise1_map. auto.
  Qed.
  Lemma mul_scalar (l : list V) (s : T) : exists r, arr_mul l (OScalar s) = Ok r /\
    elementwise1 (fun a c => c = mkV (vx a * s)%num (vy a * s)%num) l r.
  Proof. eexists; split; [reflexivity|]. apply elementwise1_map. auto. Qed.

  Lemma div_generic (f : T -> T -> T) (g : V -> V -> res V) (gs : V -> T -> res V)
      (op : list V -> arr_operand T -> res (list V)) :
    (forall a b, (forall c, g a b = Ok c <-> (vx b =? n0)%num = false /\ (vy b =? n0)%num = false /\
                               c = mkV (f (vx a) (vx b)) (f (vy a) (vy b))) /\
    (forall e, g a b = Err e -> e = ZeroDivisionError /\ ((vx b =? n0)%num = true \/ (vy b =? n0)%num = true))) ->
    (forall a s, gs a s = g a (mkV s s)) ->
    (forall l m, op l (OSeq m) = zip_with g l m) ->
    (forall l v, op l (OVec v) = mapM (fun a => g a (vec2_of v)) l) ->
    (forall l s, op l (OScalar s) = mapM (fun a => gs a s) l) ->
    div_arith f op.
  Proof.
    intros Hg Hgs O1 O2 O3 l m v s. rewrite O1, O2, O3.
    destruct (zip_with_spec g l m) as (Z1 & Z2 & Z3).
    split; auto. split; [|split; [|split; [|split; [|split]]]].
    - intros r Hr. specialize (Z2 r Hr). split; [destruct Z2; lia|].
      eapply elementwise_impl; [|eauto]. intros a b c Hc. apply Hg in Hc. auto.
    - intros e He Hl. destruct (Z3 e He Hl) as (k & a & b & H1 & H2 & H3).
      apply Hg in H3. destruct H3; split; auto. exists b; split; auto. eapply nth_error_In; eauto.
    - intros r Hr. apply mapM_ok in Hr. eapply elementwise1_impl; [|eauto].
      intros a b Hc. cbv beta in Hc. apply Hg in Hc. auto.
    - intros e He. apply mapM_err in He. destruct He as (k & a & Ha & Hf).
      apply Hg in Hf. destruct Hf; split; auto. split; auto. intros ->. destruct k; discriminate.
    - intros r Hr. apply mapM_ok in Hr. eapply elementwise1_impl; [|eauto].
      intros a b Hc. cbv beta in Hc. rewrite Hgs in Hc. apply Hg in Hc. cbn in Hc. tauto.
    - intros e He. apply mapM_err in He. destruct He as (k & a & Ha & Hf).
      rewrite Hgs in Hf. apply Hg in Hf. destruct Hf; split; auto. split; [intros ->; destruct k; discriminate|].
      cbn in H0; tauto.
  Qed.
  Lemma div_spec : div_arith ndiv arr_div.
  Proof. apply (div_generic ndiv vdiv vdivs); auto. intros; apply vdiv_spec. Qed.
  Lemma fdiv_spec : div_arith nfloordiv arr_fdiv.
  Proof. apply (div_generic nfloordiv vfdiv vfdivs); auto. intros; apply vfdiv_spec. Qed.

  Lemma inplace_same (l : list V) (o : arr_operand T) :
    arr_exec l (OpIAdd o) = arr_add l o /\ arr_exec l (OpISub o) = arr_sub l o /\
    arr_exec l (OpIMul o) = arr_mul l o /\ arr_exec l (OpIDiv o) = arr_div l o /\
    arr_exec l (OpIFloorDiv o) = arr_fdiv l o.
  Proof. repeat split. Qed.
  Lemma step_failure_unchanged (l : list V) (o : arr_op T) e : arr_exec l o = Err e -> arr_step l o = l.
  Proof. intro H; unfold arr_step; rewrite H; auto. Qed.

  Lemma reversed_ops (l m : list V) :
    (length l <> length m -> arr_rsub l (OSeq m) = Err ValueError /\ arr_rdiv l (OSeq m) = Err ValueError
                          /\ arr_rfdiv l (OSeq m) = Err ValueError) /\
    (length l = length m -> arr_rsub l (OSeq m) = arr_sub m (OSeq l)) /\
    (forall r, arr_rdiv l (OSeq m) = Ok r <-> arr_div m (OSeq l) = Ok r) /\
    (forall r, arr_rfdiv l (OSeq m) = Ok r <-> arr_fdiv m (OSeq l) = Ok r).
  Proof.
    assert (Hc : forall (f : V -> V -> res V), length l = length m ->
       mapM (fun ab => f (snd ab) (fst ab)) (combine l m) = mapM (fun ab => f (fst ab) (snd ab)) (combine m l)).
    { intros f. revert m. induction l as [|a l' IH]; intros [|b m'] H; try discriminate; auto.
      cbn. rewrite IH; auto. }
    cbn. unfold zip_with. rewrite (Nat.eqb_sym (length m) (length l)).
    destruct (Nat.eqb_spec (length l) (length m)) as [H|H].
    - split; [congruence|]. split; [intros _; apply (Hc (fun a b => Ok (vsub a b))); auto|].
      rewrite (Hc vdiv), (Hc vfdiv) by auto. tauto.
    - split; auto. split; [congruence|]. split; split; discriminate.
  Qed.

End Gen.

(** ** C15, over the reals *)
Local Open Scope R_scope.
Lemma longest_fold (l : list (vec R)) (o : option (vec R)) (m : R) :
  match fold_left longest_step l (o, m) with
  | (r, m') =>
    ((forall v, In v l -> length2 v <= m) -> r = o /\ m' = m) /\
    (forall pre x post, l = pre ++ x :: post -> m < length2 x -> (forall y, In y pre -> length2 y < length2 x) ->
     (forall y, In y post -> length2 y <= length2 x) -> r = Some x /\ m' = length2 x)
  end.
Proof.
  revert o m. induction l as [|a l IH]; intros o m.
  - cbn. split; [auto|]. intros [|] x post H; discriminate.
  - cbn [fold_left]. unfold longest_step at 2. cbn [snd].
    destruct (m <? length2 a)%num eqn:Hc; rnum.
    + apply Rltb_true in Hc. specialize (IH (Some a) (length2 a)).
      destruct (fold_left longest_step l (Some a, length2 a)) as [r m'].
      destruct IH as [I1 I2]. split.
      * intro H. specialize (H a (or_introl eq_refl)). lra.
      * intros pre x post Hl Hm Hp Hq. destruct pre as [|p pre]; cbn in Hl; injection Hl; intros; subst.
        -- apply I1. intros; apply Hq; auto.
        -- eapply I2; eauto. apply Hp; left; auto. intros; apply Hp; right; auto.
    + apply Rltb_false in Hc. specialize (IH o m).
      destruct (fold_left longest_step l (o, m)) as [r m'].
      destruct IH as [I1 I2]. split.
      * intro H. apply I1. intros; apply H; right; auto.
      * intros pre x post Hl Hm Hp Hq. destruct pre as [|p pre]; cbn in Hl; injection Hl; intros; subst.
        -- lra.
        -- eapply I2; eauto. intros; apply Hp; right; auto.
Qed.
Lemma first_max_exists (l : list (vec R)) : l <> [] -> exists x,
  first_best (fun a b => norm b < norm a) l x.
Proof.
  induction l as [|a l IH]; [congruence|]. intros _.
  destruct l as [|b l'].
  - exists a, [], []. repeat split; auto; contradiction.
  - destruct IH as (x & pre & post & He & H1 & H2); [discriminate|].
    rewrite He in *.
    assert (Hx : forall y, In y (pre ++ x :: post) -> norm y <= norm x).
    { intros y Hy. apply in_app_or in Hy. destruct Hy as [Hy|[->|Hy]]; [|lra|].
      - apply H1 in Hy; lra. - apply H2 in Hy; lra. }
    destruct (Rlt_le_dec (norm a) (norm x)) as [Hlt|Hle].
    + exists x, (a :: pre), post. split; [auto|]. split; auto. intros y [->|Hy]; auto.
    + exists a, [], (pre ++ x :: post). split; auto. split; [contradiction|].
      intros y Hy. apply Hx in Hy. lra.
Qed.
Lemma norm_lt_length2 (a b : pt) : norm a < norm b <-> length2 a < length2 b.
Proof.
  rewrite !length2_norm. pose proof (norm_nonneg a). pose proof (norm_nonneg b).
  rewrite sq_lt_iff by auto. tauto.
Qed.
Lemma longest_spec (l : list pt) :
  (forall x, first_best (fun a b => norm b < norm a) l x -> 0 < norm x -> arr_longest l = Some x) /\
  ((forall x, In x l -> norm x = 0) -> arr_longest l = None).
Proof.
  unfold arr_longest. rnum.
  assert (H := longest_fold l None 0). 
  split.
  - intros x (pre & post & He & H1 & H2) Hx.
    destruct (fold_left longest_step l (None, 0)) as [r m'].
    destruct H as [_ H].
    destruct (H pre x post He) as [-> _]; auto.
    + rewrite length2_norm; nra.
    + intros; apply norm_lt_length2; auto.
    + intros y Hy. apply Rnot_lt_le. intro Hc. apply norm_lt_length2 in Hc. apply (H2 y); auto.
  - intro Hz. assert (Hz' : forall x, In x l -> length2 x <= 0) by (intros x Hx; rewrite length2_norm, Hz by auto; lra).
    destruct (fold_left longest_step l (None, 0)) as [r m'].
    destruct H as [H _]. destruct (H Hz') as [-> _]; auto.
Qed.

Lemma shortest_fold (l : list (vec R)) (v : vec R) :
  first_best (fun a b => length2 a < length2 b) (v :: l) (fst (fold_left shortest_step l (v, length2 v))).
Proof.
  revert v. induction l as [|a l IH]; intro v.
  - cbn. exists [], []. repeat split; auto; contradiction.
  - cbn [fold_left]. unfold shortest_step at 2. cbn [snd].
    destruct (length2 a <? length2 v)%num eqn:Hc; rnum.
    + apply Rltb_true in Hc. destruct (IH a) as (pre & post & He & H1 & H2).
      set (x := fst (fold_left shortest_step l (a, length2 a))) in *; clearbody x.
      exists (v :: pre), post. split; [cbn; f_equal; auto|]. split; auto.
      intros y [->|Hy]; auto.
      destruct pre as [|p pre]; cbn in He; injection He; intros.
      * rewrite <- H0; auto.
      * assert (length2 x < length2 p) by (apply H1; left; auto). subst p. lra.
    + apply Rltb_false in Hc. destruct (IH v) as (pre & post & He & H1 & H2).
      set (x := fst (fold_left shortest_step l (v, length2 v))) in *; clearbody x.
      destruct pre as [|p pre]; cbn in He; injection He; intros Ht Hv.
      * exists [], (a :: l). split; [cbn; congruence|]. split; [contradiction|].
        subst post. rewrite <- Hv in *.
        intros y [<-|Hy]; [lra|apply H2; auto].
      * exists (p :: a :: pre), post. split; [cbn; congruence|]. split; auto.
        assert (length2 x < length2 p) by (apply H1; left; auto). rewrite <- Hv in *.
        intros y [<-|[<-|Hy]]; [auto|lra|apply H1; right; auto].
Qed.
Lemma shortest_spec (l : list pt) : 
  (l = [] -> arr_shortest l = None) /\
  (l <> [] -> exists x, arr_shortest l = Some x /\ first_best (fun a b => norm a < norm b) l x).
Proof.
  split; [intros ->; auto|]. intro H. destruct l as [|v l]; [congruence|].
  unfold arr_shortest. eexists; split; [reflexivity|].
  cbn [fold_left]. unfold shortest_step at 2. cbn [snd].
  assert (Hn : (length2 v <? length2 v)%num = false) by (rnum; apply Rltb_false; lra).
  rewrite Hn. destruct (shortest_fold l v) as (pre & post & He & H1 & H2).
  exists pre, post. split; auto. split; intros y Hy; rewrite norm_lt_length2; auto.
Qed.
