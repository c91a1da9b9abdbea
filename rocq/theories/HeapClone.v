(** * HeapClone: the copies that vetting takes of builders, on the heap.

    [newN b ba h p]: the node at [p] and all nodes below it have addresses from [b] on, and their arrays from [ba] on. *)
From Verif Require Import Base Bits Env EnvFacts Node NodeWf Tree TreeFacts HeapModel HeapFrame HeapOwn HeapRep HeapSim HeapProg HeapReduce.
Local Open Scope nat_scope.

Section Clone.
Context {E : Env} {T : Type} {K : Key T} (grow : nat -> nat -> nat).
Notation obj := (obj (T := T)).
Notation heap := (heap (T := T)).
Notation M := (M (T := T)).
Notation node := (node T).
Local Opaque maxTreeDepth fanout fb.

(** leaf1.go:177-180, leaf2.go:248-251, twig.go:320-322 ([append] to a nil slice makes a new array, of at least the
    length needed), branch.go:433-440 (the assignments to the copy [ret] happen before it is made an object here; nothing
    else can see it before). *)
Fixpoint cloneH (fuel : nat) (p : nat) : M nat :=
  match fuel with
  | O => fail Fuel
  | S k =>
      o <~ load p ;;
      match o with
      | OLeaf1 a => alloc (OLeaf1 a)
      | OLeaf2 a b => alloc (OLeaf2 a b)
      | OTwig r len =>
          l <~ elemsOf (r, len) ;;
          r' <~ allocArr (mkArray l (Nat.max len (grow 0 len)) len) ;;
          alloc (OTwig r' len)
      | OBranch m d =>
          d' <~ foldMM (fun d i =>
              match childP d i with
              | Some c => c' <~ cloneH k c ;; ret (set_nth d i (Some c'))
              | None => fail Panic                                    (* nil receiver *)
              end) d (mask_indices m) ;;
          alloc (OBranch m d')
      end
  end.

(** tree.go:211-213, builder.go:101-103 [clone]. *)
Definition bH_clone (t : ptree) : M ptree :=
  match pt_root t with
  | Some p => q <~ cloneH treeFuel p ;; ret (mkPT (Some q) (pt_count t))
  | None => fail Panic                                                (* nil receiver *)
  end.

Inductive newN (b ba : nat) (h : heap) : nat -> Prop :=
| newN_at p o : nth_error (h_objs h) p = Some o -> b <= p ->
    (forall r len, o = OTwig r len -> ba <= r) ->
    (forall m d c, o = OBranch m d -> In (Some c) d -> newN b ba h c) -> newN b ba h p.

Lemma newN_add b ba h h' p : addonly h h' -> newN b ba h p -> newN b ba h' p.
Proof.
  intros (( l & Hl) & _) H. induction H as [p o H1 H2 H3 H4 IH]. apply (newN_at _ _ _ _ o); eauto.
  rewrite Hl, nth_error_app1; auto. apply nth_error_Some. congruence.
Qed.
Lemma newN_le b ba b' ba' h p : b' <= b -> ba' <= ba -> newN b ba h p -> newN b' ba' h p.
Proof.
  intros Hb Ha H. induction H as [p o H1 H2 H3 H4 IH]. apply (newN_at _ _ _ _ o); eauto; try lia.
  intros r len Er. specialize (H3 r len Er). lia.
Qed.

Lemma readAll_length (f : nat -> option node) d : forall ds, readAll f d = Some ds -> length ds = length d.
Proof.
  induction d as [|[c|] d IH]; cbn [readAll]; intros ds H.
  - injection H as <-. auto.
  - destruct (f c); [|discriminate]. destruct (readAll f d); [|discriminate]. injection H as <-. cbn. f_equal. auto.
  - destruct (readAll f d); [|discriminate]. injection H as <-. cbn. f_equal. auto.
Qed.
Lemma readAll_pointwise (f : nat -> option node) : forall d ds, length d = length ds ->
  (forall i, match childP d i, child ds i with Some c, Some n => f c = Some n | None, None => True | _, _ => False end) ->
  readAll f d = Some ds.
Proof.
  induction d as [|x d IH]; intros [|y ds] HL H; try discriminate; auto. cbn [readAll].
  assert (Hd : readAll f d = Some ds) by (apply IH; [cbn in HL; lia|]; intros i; apply (H (S i))).
  specialize (H 0). cbn in H. destruct x as [c|], y as [n|]; try contradiction; rewrite Hd; auto. rewrite H. auto.
Qed.
Lemma childP_set (d : list (option nat)) i x j : i < length d -> childP (set_nth d i x) j = if Nat.eqb i j then x else childP d j.
Proof.
  revert i j. induction d as [|y d IH]; intros i j Hi; [cbn in Hi; lia|].
  destruct i as [|i], j as [|j]; auto. cbn [set_nth]. apply (IH i j). cbn in Hi. lia.
Qed.
Lemma childP_In (d : list (option nat)) c : In (Some c) d -> exists i, childP d i = Some c.
Proof. intros H. destruct (In_nth _ _ None H) as (i & _ & Hi). exists i. exact Hi. Qed.

Lemma addonly_len (h h' : heap) : addonly h h' -> length (h_objs h) <= length (h_objs h') /\ length (h_arrs h) <= length (h_arrs h').
Proof. intros ((l1 & ->) & (l2 & ->) & _). rewrite !app_length. lia. Qed.

Context {vok : T -> Prop}.

Lemma cloneH_ok k : forall fuel dep p n h, readN fuel h p = Some n -> wf vok dep n -> maxTreeDepth - dep < k ->
  exists q h', cloneH k p h = (Ok q, h') /\ addonly h h' /\ readN fuel h' q = Some n /\
    newN (length (h_objs h)) (length (h_arrs h)) h' q.
Proof.
  induction k as [|k IH]; intros fuel dep p n h Hr Hw Hk; [lia|].
  destruct fuel as [|fuel]; [discriminate|]. cbn [readN] in Hr. cbn [cloneH].
  destruct (nth_error (h_objs h) p) as [o|] eqn:Ho; [|discriminate]. rewrite (bind_load _ _ _ _ Ho).
  assert (Hnew : forall o' arrs', addonly h (mkHeap (h_objs h ++ [o']) (h_arrs h ++ arrs') (h_over h) (h_log h))).
  { intros o' arrs'. split; [|split]; cbn; eauto. exists []. rewrite app_nil_r. auto. }
  assert (Hat : forall (h1 : heap) o', nth_error (h_objs h1 ++ [o']) (length (h_objs h1)) = Some o').
  { intros h1 o'. rewrite nth_error_app2, Nat.sub_diag by lia. reflexivity. }
  destruct o as [a|a b|r len|m d].
  - injection Hr as <-. eexists _, _. split; [reflexivity|]. split; [|split].
    + specialize (Hnew (OLeaf1 a) []). rewrite app_nil_r in Hnew. exact Hnew.
    + cbn [readN h_objs]. rewrite Hat. reflexivity.
    + apply (newN_at _ _ _ _ (OLeaf1 a)); cbn; auto; intros; discriminate.
  - injection Hr as <-. eexists _, _. split; [reflexivity|]. split; [|split].
    + specialize (Hnew (OLeaf2 a b) []). rewrite app_nil_r in Hnew. exact Hnew.
    + cbn [readN h_objs]. rewrite Hat. reflexivity.
    + apply (newN_at _ _ _ _ (OLeaf2 a b)); cbn; auto; intros; discriminate.
  - destruct (nth_error (h_arrs h) r) as [a|] eqn:Ea; [|discriminate]. cbn in Hr. injection Hr as <-.
    unfold elemsOf, bindM, loadArr, ret. cbn [fst snd]. rewrite Ea. cbn [allocArr].
    eexists _, _. split; [reflexivity|]. cbn [alloc h_objs h_arrs]. split; [|split].
    + apply Hnew.
    + cbn [readN h_objs h_arrs]. rewrite Hat. rewrite nth_error_app2, Nat.sub_diag by lia. cbn. rewrite firstn_firstn, Nat.min_id. reflexivity.
    + apply (newN_at _ _ _ _ (OTwig (length (h_arrs h)) len)); cbn; auto; [|intros; discriminate].
      intros r' len' [= <- <-]. lia.
  - destruct (readAll (readN fuel h) d) as [ds|] eqn:Ed; [|discriminate]. cbn in Hr. injection Hr as <-.
    inversion Hw as [| | |d' m' data' Hd Hlen Hm Hch Hp Hl]; subst d' m' data'.
    pose proof (readAll_length _ _ _ Ed) as HL.
    set (F := fun (d : list (option nat)) i => match childP d i with
              | Some c => c' <~ cloneH k c ;; ret (set_nth d i (Some c')) | None => fail Panic end).
    (** after some indices: those are done, the others are as before *)
    assert (Hloop : forall order todo d1 h1, NoDup order -> (forall i, In i order -> isSome (child ds i) = true) ->
      addonly h h1 -> length d1 = length d ->
      (forall i, In i order -> childP d1 i = childP d i) ->
      (forall i, In i todo -> match childP d1 i, child ds i with
         | Some c, Some n => readN fuel h1 c = Some n /\ newN (length (h_objs h)) (length (h_arrs h)) h1 c | _, _ => False end) ->
      (forall i, ~ In i todo -> ~ In i order -> childP d1 i = childP d i) ->
      exists d2 h2, foldMM F d1 order h1 = (Ok d2, h2) /\ addonly h h2 /\ length d2 = length d /\
        (forall i, In i (order ++ todo) -> match childP d2 i, child ds i with
           | Some c, Some n => readN fuel h2 c = Some n /\ newN (length (h_objs h)) (length (h_arrs h)) h2 c | _, _ => False end) /\
        (forall i, ~ In i todo -> ~ In i order -> childP d2 i = childP d i)).
    { induction order as [|i order IHo]; intros todo d1 h1 Hnd Hin Ha1 HL1 Hsame Hdone Hrest.
      - exists d1, h1. split; [reflexivity|]. split; auto.
      - inversion Hnd as [|? ? Hni Hnd']; subst. cbn [foldMM].
        assert (Hc := readAll_child _ _ _ i Ed). pose proof (Hin i (or_introl eq_refl)) as Hs.
        destruct (child ds i) as [ni|] eqn:Eni; [|discriminate].
        rewrite <- (Hsame i (or_introl eq_refl)) in Hc.
        destruct (childP d1 i) as [c|] eqn:Ec; [|congruence].
        destruct Hc as (n' & Hrn & En'). assert (n' = ni) by congruence. subst n'.
        destruct (IH fuel (S dep) c ni h1) as (q & h2 & Eq & Ha2 & Hq & Hn2).
        { eapply readN_add; eauto. } { eauto. } { lia. }
        assert (Hstep : F d1 i h1 = (Ok (set_nth d1 i (Some q)), h2)).
        { unfold F. rewrite Ec. rewrite (bindM_ok _ _ _ _ _ Eq). reflexivity. }
        rewrite (bindM_ok _ _ _ _ _ Hstep).
        assert (Hi : i < length d1).
        { destruct (Nat.lt_ge_cases i (length d1)); auto. unfold childP in Ec. rewrite nth_overflow in Ec by auto. discriminate. }
        destruct (addonly_len _ _ Ha1) as [Hb1 Hb2].
        destruct (IHo (i :: todo) (set_nth d1 i (Some q)) h2) as (d3 & h3 & E3 & Ha3 & HL3 & Hd3 & Hr3); auto.
        + intros j Hj. apply Hin. right. auto.
        + eapply addonly_trans; eauto.
        + rewrite set_nth_length. auto.
        + intros j Hj. rewrite childP_set by auto. destruct (Nat.eqb_spec i j) as [->|]; [contradiction|].
          apply Hsame. right. auto.
        + intros j [<-|Hj].
          * rewrite childP_set by auto. rewrite Nat.eqb_refl, Eni. split; auto. eapply newN_le; eauto.
          * rewrite childP_set by auto. destruct (Nat.eqb_spec i j) as [<-|]; [rewrite Eni; split; auto; eapply newN_le; eauto|].
            specialize (Hdone j Hj). destruct (childP d1 j), (child ds j); auto. destruct Hdone. split; [eapply readN_add; eauto|].
            eapply newN_add; eauto.
        + intros j Hj1 Hj2. rewrite childP_set by auto. destruct (Nat.eqb_spec i j) as [<-|]; [exfalso; apply Hj1; left; auto|].
          apply Hrest; intros Hj; [apply Hj1; right; auto|]. destruct Hj as [->|Hj]; [|auto]. congruence.
        + exists d3, h3. split; auto. split; auto. split; auto. split.
          * intros j Hj. apply Hd3. apply in_app_iff. cbn in Hj. rewrite in_app_iff in Hj. cbn. tauto.
          * intros j Hj1 Hj2. apply Hr3; intros Hj; [destruct Hj as [->|Hj]; [apply Hj2; left; auto|auto]|apply Hj2; right; auto]. }
    destruct (Hloop (mask_indices m) [] d h) as (d2 & h2 & E2 & Ha2 & HL2 & Hd2 & Hr2).
    + apply mask_indices_NoDup. rewrite Hm. apply updateMask_lt.
    + intros i Hi. rewrite Hm in Hi. apply mask_indices_updateMask in Hi as (x & Ex); auto. rewrite Ex. auto.
    + apply addonly_refl.
    + auto.
    + auto.
    + intros i [].
    + auto.
    + rewrite (bindM_ok _ _ _ _ _ E2). cbn [alloc].
      assert (Ha3 : addonly h2 (mkHeap (h_objs h2 ++ [OBranch m d2]) (h_arrs h2) (h_over h2) (h_log h2))).
      { split; [|split]; cbn; eauto; exists []; rewrite app_nil_r; auto. }
      assert (Hall : forall i, match childP d2 i, child ds i with
         | Some c, Some n => readN fuel h2 c = Some n /\ newN (length (h_objs h)) (length (h_arrs h)) h2 c
         | None, None => True | _, _ => False end).
      { intros i. destruct (child ds i) as [ni|] eqn:Ei.
        - specialize (Hd2 i). rewrite Ei in Hd2. rewrite app_nil_r in Hd2. apply Hd2.
          rewrite Hm. apply mask_indices_updateMask; eauto.
        - rewrite Hr2; auto.
          + assert (Hc := readAll_child _ _ _ i Ed). destruct (childP d i); auto. destruct Hc as (? & _ & ?). congruence.
          + rewrite Hm. intros Hi. apply mask_indices_updateMask in Hi as (x & Ex); auto. congruence. }
      eexists _, _. split; [reflexivity|]. split; [eapply addonly_trans; eauto|]. split.
      * cbn [readN h_objs]. rewrite Hat. rewrite (readAll_pointwise _ d2 ds); [reflexivity|congruence|].
        intros i. specialize (Hall i). destruct (childP d2 i), (child ds i); auto. destruct Hall. eapply readN_add; eauto.
      * destruct (addonly_len _ _ Ha2). apply (newN_at _ _ _ _ (OBranch m d2)); cbn; auto; [intros; discriminate|].
        intros m' d' c [= <- <-] Hin. destruct (childP_In _ _ Hin) as (i & Hi). specialize (Hall i). rewrite Hi in Hall.
        destruct (child ds i); [|contradiction]. destruct Hall. eapply newN_add; eauto.
Qed.

Lemma bH_clone_ok t u p h : readT treeFuel h t = Some u -> tok vok u -> pt_root t = Some p ->
  exists t' h', bH_clone t h = (Ok t', h') /\ addonly h h' /\ readT treeFuel h' t' = Some u /\
    forall q, pt_root t' = Some q -> newN (length (h_objs h)) (length (h_arrs h)) h' q.
Proof.
  intros Hr Hu Hp. unfold readT in Hr. rewrite Hp in Hr.
  destruct (readN treeFuel h p) as [n|] eqn:En; [|discriminate]. cbn in Hr. injection Hr as <-.
  destruct (cloneH_ok treeFuel treeFuel 0 p n h En) as (q & h' & Eq & Ha & Hq & Hn).
  { apply (proj1 Hu n). reflexivity. } { apply fuelGet_tree. }
  unfold bH_clone. rewrite Hp. rewrite (bindM_ok _ _ _ _ _ Eq). eexists _, _. split; [reflexivity|]. split; auto. split.
  - unfold readT. cbn [pt_root pt_count]. rewrite Hq. reflexivity.
  - intros q' [= <-]. auto.
Qed.
End Clone.
