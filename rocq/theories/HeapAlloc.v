(** * HeapAlloc: how many nodes and arrays the point operations allocate.

    [costs h m n post]: started in [h], [m] allocates at most [n] nodes and arrays, and [post] holds if it returns.
    [deep h p d]: below [p], taken to be at depth [d], twigs lie at depth [maxTreeDepth] or more and branches above it. *)
From Verif Require Import Base Bits Env EnvFacts Node NodeWf NodeAdd HeapModel HeapFrame HeapOwn HeapRep HeapProg.
Local Open Scope nat_scope.

Section Alloc.
Context {E : Env} {T : Type} {K : Key T} (grow : nat -> nat -> nat).
Notation obj := (obj (T := T)).
Notation heap := (heap (T := T)).
Notation M := (M (T := T)).
Notation node := (node T).
Local Opaque maxTreeDepth fanout fb.

(** The number of nodes and arrays allocated so far. *)
Definition hsize (h : heap) : nat := length (h_objs h) + length (h_arrs h).

Definition costs {A} (h : heap) (m : M A) (n : nat) (post : A -> heap -> Prop) : Prop :=
  hsize (snd (m h)) <= hsize h + n /\ forall a h', m h = (Ok a, h') -> post a h'.

Lemma costs_ret {A} h (a : A) n (post : A -> heap -> Prop) : post a h -> costs h (ret a) n post.
Proof. intros H. split; cbn; [lia|]. intros x h' E1. inversion E1; subst. auto. Qed.
Lemma costs_fail {A} h (r : res A) n post : (forall a, r <> Ok a) -> costs h (fail r) n post.
Proof. intros H. split; cbn; [lia|]. intros x h' E1. inversion E1; subst. destruct (H x eq_refl). Qed.
Lemma costs_weaken {A} h (m : M A) n n' (post post' : A -> heap -> Prop) : costs h m n post -> n <= n' ->
  (forall a h', post a h' -> post' a h') -> costs h m n' post'.
Proof. intros [H1 H2] Hn Hp. split; [lia|]. intros a h' E1. auto. Qed.
Lemma costs_bind {A B} h (m : M A) (k : A -> M B) n1 n2 n post post' : costs h m n1 post -> n1 + n2 <= n ->
  (forall a h', post a h' -> costs h' (k a) n2 post') -> costs h (bindM m k) n post'.
Proof.
  intros [H1 H2] Hn Hk. unfold costs, bindM. destruct (m h) as [[a| |] h1] eqn:E1; cbn in *.
  - destruct (Hk a h1 (H2 a h1 eq_refl)) as [H3 H4]. split; [lia|auto].
  - split; [lia|discriminate].
  - split; [lia|discriminate].
Qed.
(** A step that allocates nothing or whose outcome is known. *)
Lemma costs_run {A B} h (m : M A) (k : A -> M B) a h1 n1 n post : m h = (Ok a, h1) -> hsize h1 <= hsize h + n1 ->
  n1 <= n -> costs h1 (k a) (n - n1) post -> costs h (bindM m k) n post.
Proof.
  intros E1 H1 Hn [H2 H3]. unfold costs. rewrite (bindM_ok _ _ _ _ _ E1). split; [lia|auto].
Qed.

Definition anyPost {A} : A -> heap -> Prop := fun _ _ => True.

Lemma costs_load h p : costs h (load p) 0 (fun o h' => h' = h /\ nth_error (h_objs h) p = Some o).
Proof.
  unfold load. split; destruct (nth_error (h_objs h) p) eqn:E1; cbn; try lia; intros x h' E2; inversion E2; subst; auto.
Qed.
Lemma costs_loadArr h r : costs h (loadArr r) 0 (fun a h' => h' = h /\ nth_error (h_arrs h) r = Some a).
Proof.
  unfold loadArr. split; destruct (nth_error (h_arrs h) r) eqn:E1; cbn; try lia; intros x h' E2; inversion E2; subst; auto.
Qed.
Lemma costs_alloc h (o : obj) : costs h (alloc o) 1 (fun p h' => p = length (h_objs h) /\ h_objs h' = h_objs h ++ [o] /\ h_arrs h' = h_arrs h).
Proof.
  split; cbn.
  - unfold hsize. cbn. rewrite app_length. cbn. lia.
  - intros a h' E1. inversion E1; subst. auto.
Qed.
Lemma costs_store h p (o : obj) : costs h (store p o) 0 (fun _ h' => h_objs h' = set_nth (h_objs h) p o /\ h_arrs h' = h_arrs h).
Proof.
  split; cbn.
  - unfold hsize. cbn. rewrite set_nth_length. lia.
  - intros a h' E1. inversion E1; subst. auto.
Qed.
Lemma costs_storeArr h r i a : costs h (storeArr r i a) 0 (fun _ h' => h_objs h' = h_objs h).
Proof.
  split; cbn.
  - unfold hsize. cbn. rewrite set_nth_length. lia.
  - intros x h' E1. inversion E1; subst. auto.
Qed.
Lemma costs_elemsOf h sl : costs h (elemsOf sl) 0 (fun l h' => h' = h /\ length l <= snd sl).
Proof.
  unfold elemsOf. eapply costs_bind; [apply costs_loadArr|apply Nat.le_refl|]. intros a h' [-> _]. apply costs_ret. split; auto.
  rewrite firstn_length. lia.
Qed.
Lemma costs_newSlice h (data : list T) : costs h (newSlice data) 1 (fun sl h' => snd sl = length data /\ h_objs h' = h_objs h).
Proof.
  split; cbn.
  - unfold hsize. cbn. rewrite app_length. cbn. lia.
  - intros a h' E1. inversion E1; subst. auto.
Qed.
Lemma costs_setSlot h sl i v : costs h (setSlot sl i v) 0 (fun _ h' => h_objs h' = h_objs h).
Proof.
  unfold setSlot. eapply costs_bind; [apply costs_loadArr|apply Nat.le_refl|]. intros a h' [-> _]. apply costs_storeArr.
Qed.
Lemma costs_append h sl v : costs h (append grow sl v) 1 (fun _ h' => h_objs h' = h_objs h).
Proof.
  unfold append. destruct sl as [r len]. eapply costs_bind; [apply costs_loadArr|apply Nat.le_refl|]. intros a h' [-> _].
  destruct (len <? a_cap a).
  - eapply (costs_run _ _ _ _ _ 0); [reflexivity|unfold hsize; cbn; lia|lia|].
    eapply (costs_run _ _ _ _ _ 0); [reflexivity|unfold hsize; cbn; rewrite set_nth_length; lia|lia|]. apply costs_ret. reflexivity.
  - eapply (costs_run _ _ _ _ _ 1); [reflexivity|unfold hsize; cbn; rewrite app_length; cbn; lia|lia|]. apply costs_ret. reflexivity.
Qed.
Lemma costs_cloneSlice h sl : costs h (cloneSlice sl) 1 (fun _ h' => h_objs h' = h_objs h).
Proof.
  unfold cloneSlice. eapply costs_bind; [apply costs_elemsOf|apply Nat.le_refl|]. intros l h' [-> _].
  eapply costs_weaken; [apply costs_newSlice|lia|]. intros a h' [_ H]. exact H.
Qed.

(** ** Splitting a leaf *)

(** Children of the branch at [b] are leaves; without [two], only leaves of one element. *)
Definition leafObj (two : bool) (o : obj) : Prop := match o with OLeaf1 _ => True | OLeaf2 _ _ => two = true | _ => False end.
Definition leafy (two : bool) (h : heap) (b : nat) : Prop := exists m d, nth_error (h_objs h) b = Some (OBranch m d) /\
  forall c, In (Some c) d -> exists o, nth_error (h_objs h) c = Some o /\ leafObj two o.
Definition bare (h : heap) (b : nat) : Prop := exists m d, nth_error (h_objs h) b = Some (OBranch m d) /\ forall c, ~ In (Some c) d.

Lemma in_set_nth {A} (l : list A) i x y : In y (set_nth l i x) -> y = x \/ In y l.
Proof.
  revert i. induction l as [|a l IH]; intros [|i]; cbn; auto; intros [H|H]; auto. destruct (IH i H); auto.
Qed.
Lemma childP_in d i c : childP d i = Some c -> In (Some c) d.
Proof.
  unfold childP. intros H. destruct (Nat.lt_ge_cases i (length d)) as [Hl|Hl]; [rewrite <- H; apply nth_In; auto|].
  rewrite nth_overflow in H by auto. discriminate.
Qed.
Lemma leafObj_true two o : leafObj two o -> leafObj true o.
Proof. destruct o; cbn; auto. Qed.

(** Reading an object that is there. *)
Lemma costs_load_ok {B} h p (o : obj) (k : obj -> M B) n post : nth_error (h_objs h) p = Some o -> costs h (k o) n post ->
  costs h (bindM (load p) k) n post.
Proof. intros H Hk. eapply (costs_run _ _ _ _ _ 0); [apply load_ok; eauto|lia|lia|]. rewrite Nat.sub_0_r. auto. Qed.

Lemma leafy_store h h' b d q two :
  (forall c, In (Some c) d -> exists o, nth_error (h_objs h) c = Some o /\ leafObj two o) -> b < length (h_objs h) ->
  (exists o, nth_error (h_objs h) q = Some o /\ leafObj two o) -> q <> b ->
  (forall c, In (Some c) d -> c <> b) ->
  forall i m', h_objs h' = set_nth (h_objs h) b (OBranch m' (set_nth d i (Some q))) -> leafy two h' b.
Proof.
  intros Hd Hb Hq Hqb Hdb i m' E1. exists m', (set_nth d i (Some q)). rewrite E1. split; [apply nth_error_set_nth_eq; auto|].
  intros c Hc. destruct (in_set_nth _ _ _ _ Hc) as [Hx|Hx].
  - inversion Hx; subst. rewrite nth_error_set_nth_ne; auto.
  - rewrite nth_error_set_nth_ne; auto. apply not_eq_sym. auto.
Qed.

Lemma leafObj_branch h b m d two : nth_error (h_objs h) b = Some (OBranch m d) ->
  (forall c, In (Some c) d -> exists o, nth_error (h_objs h) c = Some o /\ leafObj two o) -> forall c, In (Some c) d -> c <> b.
Proof. intros Hb Hd c Hc ->. destruct (Hd b Hc) as (o & Ho & Hl). rewrite Hb in Ho. inversion Ho; subst. exact Hl. Qed.

(** A child is added to the branch at [b]. *)
Lemma costs_new_child h b m d i v two : nth_error (h_objs h) b = Some (OBranch m d) ->
  (forall c, In (Some c) d -> exists o, nth_error (h_objs h) c = Some o /\ leafObj two o) ->
  costs h (q <~ alloc (OLeaf1 v) ;;
           let pk := setNonNilChildP (m, d) i (Some q) in
           _ <~ store b (OBranch (fst pk) (snd pk)) ;;
           ret (b, 0%Z)) 1 (fun _ h' => leafy two h' b).
Proof.
  intros Hb Hd. eapply costs_bind; [apply costs_alloc|apply (Nat.le_refl 1)|]. intros q h1 (-> & E1 & E2). cbn zeta.
  eapply costs_bind; [apply costs_store|apply Nat.le_refl|]. intros _ h2 [E3 _]. apply costs_ret. cbn [setNonNilChildP fst snd] in E3.
  pose proof (nth_error_Some_lt _ _ _ Hb) as Hlt.
  assert (Hgrow : forall c, In (Some c) d -> exists o, nth_error (h_objs h1) c = Some o /\ leafObj two o).
  { intros c Hc. destruct (Hd c Hc) as (o & Ho & Hl). exists o. split; auto. rewrite E1, nth_error_app1; auto.
    eapply nth_error_Some_lt; eauto. }
  eapply (leafy_store h1 h2 b d (length (h_objs h))); [exact Hgrow|rewrite E1, app_length; lia| |lia| |exact E3].
  - exists (OLeaf1 v). split; [rewrite E1; apply nth_error_new|exact Logic.I].
  - eapply leafObj_branch; eauto.
Qed.

Lemma costs_add_bare k eq f b v d hs h : bare h b -> costs h (addH grow k eq f b v d hs) 1 (fun _ h' => leafy false h' b).
Proof.
  intros (m & da & Hp & Hno). destruct k as [|k]; cbn [addH]; [apply costs_fail; discriminate|]. eapply costs_load_ok; [exact Hp|]. cbv beta iota.
  destruct (childP da (h_hash hs)) as [c|] eqn:Ec; [destruct (Hno c (childP_in _ _ _ Ec))|].
  apply costs_new_child; auto. intros c Hc. destruct (Hno c Hc).
Qed.

(** The child at [c] is replaced. *)
Lemma costs_add_leafy1 k eq f b v d hs h : leafy false h b -> costs h (addH grow k eq f b v d hs) 1 (fun _ h' => leafy true h' b).
Proof.
  intros (m & da & Hp & Hch). destruct k as [|k]; cbn [addH]; [apply costs_fail; discriminate|]. eapply costs_load_ok; [exact Hp|]. cbv beta iota.
  assert (Hch2 : forall c, In (Some c) da -> exists o, nth_error (h_objs h) c = Some o /\ leafObj true o).
  { intros c Hc. destruct (Hch c Hc) as (o & Ho & Hl). exists o. split; auto. eapply leafObj_true; eauto. }
  pose proof (nth_error_Some_lt _ _ _ Hp) as Hlt. pose proof (leafObj_branch _ _ _ _ _ Hp Hch2) as Hne.
  destruct (childP da (h_hash hs)) as [c|] eqn:Ec; [|apply costs_new_child; auto].
  destruct (Hch c (childP_in _ _ _ Ec)) as ([a|? ?|? ?|? ?] & Ho & Hl); cbn in Hl; try contradiction; try discriminate.
  assert (Hcb := Hne c (childP_in _ _ _ Ec)).
  eapply costs_bind with (n1 := 1) (n2 := 0) (post := fun r h1 => b < length (h_objs h1) /\ fst r <> b /\
     (forall c, In (Some c) da -> exists o, nth_error (h_objs h1) c = Some o /\ leafObj true o) /\
     exists o, nth_error (h_objs h1) (fst r) = Some o /\ leafObj true o); [|lia|].
  - destruct k as [|k]; cbn [addH]; [apply costs_fail; discriminate|]. eapply costs_load_ok; [exact Ho|]. cbv beta iota.
    destruct (eq a v).
    + eapply costs_bind; [apply costs_store|apply Nat.le_refl|]. intros _ h1 [E1 _]. apply costs_ret. cbn [fst]. rewrite E1, set_nth_length.
      assert (Hc2 : exists o, nth_error (set_nth (h_objs h) c (OLeaf1 (f a v))) c = Some o /\ leafObj true o).
      { exists (OLeaf1 (f a v)). split; [|exact Logic.I]. apply nth_error_set_nth_eq. eapply nth_error_Some_lt; eauto. }
      split; [auto|]. split; [auto|]. split; auto. intros x Hx. destruct (Nat.eq_dec c x) as [<-|Hn]; auto.
      rewrite nth_error_set_nth_ne; auto.
    + eapply costs_bind; [apply costs_alloc|apply (Nat.le_refl 1)|]. intros q h1 (-> & E1 & _). apply costs_ret. cbn [fst]. rewrite E1, app_length.
      split; [lia|]. split; [lia|]. split.
      * intros x Hx. destruct (Hch2 x Hx) as (o & Hxo & Hxl). exists o. split; auto. rewrite nth_error_app1; auto. eapply nth_error_Some_lt; eauto.
      * eexists. split; [apply nth_error_new|reflexivity].
  - intros [q mt] h1 (H1 & H2 & H3 & H4). cbn [fst] in *. cbn zeta. eapply costs_bind; [apply costs_store|apply Nat.le_refl|].
    intros _ h2 [E3 _]. apply costs_ret. cbn [setNonNilChildP fst snd] in E3. eapply (leafy_store h1); eauto.
Qed.

Lemma costs_add_leafy2 k eq f b v d hs h N : leafy true h b ->
  (forall k h1 sl, snd sl <= 3 -> costs h1 (newBranchFromH_with (addH grow k veq (fun _ b => b)) (S d) sl) N anyPost) ->
  costs h (addH grow k eq f b v d hs) (S N) anyPost.
Proof.
  intros (m & da & Hp & Hch) HN. destruct k as [|k]; cbn [addH]; [apply costs_fail; discriminate|]. eapply costs_load_ok; [exact Hp|]. cbv beta iota.
  destruct (childP da (h_hash hs)) as [c|] eqn:Ec.
  2:{ eapply costs_weaken; [eapply costs_new_child; eauto|lia|]. intros; exact Logic.I. }
  destruct (Hch c (childP_in _ _ _ Ec)) as (o & Ho & Hl).
  eapply costs_bind with (n1 := S N) (n2 := 0) (post := anyPost); [|lia|].
  - destruct k as [|k]; cbn [addH]; [apply costs_fail; discriminate|]. eapply costs_load_ok; [exact Ho|].
    destruct o as [a|a a2|r len|m2 d2]; cbn in Hl; try contradiction.
    + destruct (eq a v).
      * eapply costs_bind; [apply costs_store|apply Nat.le_refl|]. intros _ h1 _. apply costs_ret. exact Logic.I.
      * eapply costs_bind with (n1 := 1) (n2 := 0); [apply costs_alloc|lia|]. intros q h1 _. apply costs_ret. exact Logic.I.
    + destruct (eq a v); [|destruct (eq a2 v)].
      * eapply costs_bind; [apply costs_store|apply Nat.le_refl|]. intros _ h1 _. apply costs_ret. exact Logic.I.
      * eapply costs_bind; [apply costs_store|apply Nat.le_refl|]. intros _ h1 _. apply costs_ret. exact Logic.I.
      * eapply costs_bind; [apply costs_newSlice|apply Nat.le_refl|]. intros sl h1 [Hsl _]. cbn in Hsl.
        eapply costs_bind with (n1 := N) (n2 := 0); [apply HN; lia|lia|]. intros q h2 _. apply costs_ret. exact Logic.I.
  - intros [q mt] h1 _. cbn zeta. eapply costs_bind; [apply costs_store|apply Nat.le_refl|]. intros _ h2 _. apply costs_ret. exact Logic.I.
Qed.

(** Splitting three elements: on each level a branch, at most two leaves on the way and an array for the next level. *)
Definition splitCost (d : nat) : nat := 4 * (maxTreeDepth - d) + 1.

Lemma costs_split_from j : forall d k h sl, maxTreeDepth <= d + j -> snd sl <= 3 ->
  costs h (newBranchFromH_with (addH grow k veq (fun _ b => b)) d sl) (splitCost d) anyPost.
Proof.
  induction j as [|j IH]; intros d k h sl Hj Hsl; unfold newBranchFromH_with;
    (destruct (Nat.leb_spec maxTreeDepth d) as [Hd|Hd];
      [eapply costs_weaken; [apply costs_alloc|unfold splitCost; lia|intros; exact Logic.I]|]); [lia|].
  eapply costs_bind; [apply costs_elemsOf|apply Nat.le_refl|]. intros l h' [-> Hl].
  eapply costs_bind with (n1 := 1) (n2 := splitCost d - 1) (post := fun b h' => bare h' b); [|unfold splitCost; lia|].
  - eapply costs_weaken; [apply costs_alloc|lia|]. cbn [fst snd]. intros b h1 (-> & E1 & _). eexists _, _. rewrite E1. split; [apply nth_error_new|].
    intros c Hc. unfold emptyDataP in Hc. apply repeat_spec in Hc. discriminate.
  - intros b h1 Hb. eapply costs_bind with (n1 := splitCost d - 1) (n2 := 0) (post := anyPost); [|lia|intros; apply costs_ret; exact Logic.I].
    assert (Hs : splitCost d = 4 + splitCost (S d)) by (unfold splitCost; lia).
    assert (HN : forall k h1 sl, snd sl <= 3 -> costs h1 (newBranchFromH_with (addH grow k veq (fun _ b => b)) (S d) sl) (splitCost (S d)) anyPost)
      by (intros; apply IH; [lia|auto]).
    destruct l as [|x [|y [|z [|]]]]; cbn [foldMM]; try (cbn in Hl; lia).
    + apply costs_ret. exact Logic.I.
    + eapply costs_bind with (n1 := 1) (n2 := 0); [apply costs_add_bare; auto|lia|]. intros ? h2 _. apply costs_ret. exact Logic.I.
    + eapply costs_bind with (n1 := 1) (n2 := 1); [apply costs_add_bare; auto|lia|]. intros ? h2 H2.
      eapply costs_bind with (n1 := 1) (n2 := 0); [apply costs_add_leafy1; auto|lia|]. intros ? h3 _. apply costs_ret. exact Logic.I.
    + eapply costs_bind with (n1 := 1) (n2 := 2 + splitCost (S d)); [apply costs_add_bare; auto|lia|]. intros ? h2 H2.
      eapply costs_bind with (n1 := 1) (n2 := 1 + splitCost (S d)); [apply costs_add_leafy1; auto|lia|]. intros ? h3 H3.
      eapply costs_bind with (n1 := 1 + splitCost (S d)) (n2 := 0); [eapply costs_add_leafy2; eauto|lia|]. intros ? h4 _. apply costs_ret. exact Logic.I.
Qed.
Lemma costs_split d k h sl : snd sl <= 3 ->
  costs h (newBranchFromH_with (addH grow k veq (fun _ b => b)) d sl) (splitCost d) anyPost.
Proof. intros H. apply (costs_split_from maxTreeDepth); auto. lia. Qed.

(** ** Canonical forms *)

Lemma costs_canonicalTwig k d p sl h : (snd sl <= 2 \/ maxTreeDepth <= d) -> costs h (canonicalTwigH grow k d p sl) 1 anyPost.
Proof.
  intros H. unfold canonicalTwigH. eapply costs_bind; [apply costs_elemsOf|apply Nat.le_refl|]. intros l h' [-> Hl].
  assert (Ha : forall o : obj, costs h (q <~ alloc o ;; ret (Some q)) 1 anyPost).
  { intros o. eapply costs_bind with (n1 := 1) (n2 := 0); [apply costs_alloc|lia|]. intros q h1 _. apply costs_ret. exact Logic.I. }
  destruct l as [|a [|b [|c l]]]; auto; [apply costs_ret; exact Logic.I|].
  destruct H as [H|H]; [cbn [length] in Hl; lia|].
  assert (Hb : (64 <=? d * fb) = true).
  { apply Nat.leb_le. pose proof maxTreeDepth_bits. nia. }
  rewrite Hb, orb_true_r. apply costs_ret. exact Logic.I.
Qed.

Lemma costs_appendTo fuel : forall cap,
  (forall p (dest : list T) h, length dest <= cap -> costs h (appendToH fuel cap p dest) 0 (fun r h' => h' = h /\ forall l, r = Some l -> length l <= cap)) /\
  (forall data (dest : list T) h, length dest <= cap -> costs h (appendAllH fuel cap data dest) 0 (fun r h' => h' = h /\ forall l, r = Some l -> length l <= cap)).
Proof.
  induction fuel as [|k IH]; intros cap; [split; intros; apply costs_fail; discriminate|]. destruct (IH cap) as [IH1 IH2]. split.
  - intros p dest h Hd. cbn [appendToH]. eapply costs_bind; [apply costs_load|apply Nat.le_refl|]. intros o h' [-> _].
    destruct o as [a|a b|r len|m d].
    + apply costs_ret. split; auto. intros l. destruct (Nat.ltb_spec cap (length dest + 1)); [discriminate|]. intros E1. inversion E1; subst.
      rewrite app_length. cbn. lia.
    + apply costs_ret. split; auto. intros l. destruct (Nat.ltb_spec cap (length dest + 2)); [discriminate|]. intros E1. inversion E1; subst.
      rewrite app_length. cbn. lia.
    + eapply costs_bind; [apply costs_elemsOf|apply Nat.le_refl|]. intros l h' [-> _]. apply costs_ret. split; auto.
      intros l'. destruct (Nat.ltb_spec cap (length dest + length l)); [discriminate|]. intros E1. inversion E1; subst. rewrite app_length. lia.
    + apply IH2. auto.
  - intros data dest h Hd. cbn [appendAllH]. destruct data as [|[c|] data].
    + apply costs_ret. split; auto. intros l E1. inversion E1; subst. auto.
    + eapply costs_bind; [apply IH1; auto|apply Nat.le_refl|]. intros [l|] h' [-> Hl].
      * apply IH2. auto.
      * apply costs_ret. split; auto.
    + apply IH2. auto.
Qed.

Lemma costs_canonicalBranch k p h : costs h (canonicalBranchH grow k p) 3 anyPost.
Proof.
  unfold canonicalBranchH. eapply costs_bind; [apply (proj1 (costs_appendTo walkFuel maxLeafLen)); cbn; lia|apply Nat.le_refl|].
  intros [data|] h' [-> Hl]; [|apply costs_ret; exact Logic.I]. specialize (Hl data eq_refl).
  eapply costs_bind with (n1 := 1) (n2 := 2); [apply costs_newSlice|lia|]. intros sl h1 [Hsl _]. unfold newCanonicalH, newTwigH.
  eapply costs_bind with (n1 := 1) (n2 := 1); [apply costs_alloc|lia|]. intros q h2 _. apply costs_canonicalTwig. left. unfold maxLeafLen in Hl. lia.
Qed.

(** ** Point operations *)

Inductive deep (h : heap) : nat -> nat -> Prop :=
| deep_leaf1 p d a : nth_error (h_objs h) p = Some (OLeaf1 a) -> deep h p d
| deep_leaf2 p d a b : nth_error (h_objs h) p = Some (OLeaf2 a b) -> deep h p d
| deep_twig p d r len : nth_error (h_objs h) p = Some (OTwig r len) -> maxTreeDepth <= d -> deep h p d
| deep_branch p d m da : nth_error (h_objs h) p = Some (OBranch m da) -> d < maxTreeDepth ->
    (forall i c, childP da i = Some c -> deep h c (S d)) -> deep h p d.

Lemma rep_deep_mut h : (forall p n, rep h p n -> forall d, shape true d n -> deep h p d) /\
  (forall da ds, reps h da ds -> forall d, (forall i c, child ds i = Some c -> shape true d c) -> forall i c, childP da i = Some c -> deep h c d).
Proof.
  apply (rep_mut h (fun p n => forall d, shape true d n -> deep h p d)
    (fun da ds => forall d, (forall i c, child ds i = Some c -> shape true d c) -> forall i c, childP da i = Some c -> deep h c d)).
  - intros p a H d _. eapply deep_leaf1; eauto.
  - intros p a b H d _. eapply deep_leaf2; eauto.
  - intros p r l H _ d Hs. inversion Hs; subst. eapply deep_twig; eauto.
  - intros p m da ds H _ IH d Hs. inversion Hs as [| | |? ? ? Hlt _ Hch]; subst. eapply deep_branch; eauto.
  - intros d _ [|i] c H; discriminate.
  - intros da ds _ IH d Hs [|i] c H; [discriminate|]. apply (IH d) with (i := i); auto. intros j x Hj. apply (Hs (S j)). exact Hj.
  - intros c n da ds _ IH1 _ IH2 d Hs [|i] x H.
    + cbn in H. inversion H; subst. apply IH1. apply (Hs 0). reflexivity.
    + apply (IH2 d) with (i := i); auto. intros j y Hj. apply (Hs (S j)). exact Hj.
Qed.
Definition rep_deep h := proj1 (rep_deep_mut h).

Lemma costs_withH fuel : forall eq f p v d hs h, deep h p d ->
  costs h (withH grow fuel eq f p v d hs) (4 * (maxTreeDepth - d) + 3) anyPost.
Proof.
  induction fuel as [|k IH]; intros eq f p v d hs h Hp; cbn [withH]; [apply costs_fail; discriminate|].
  assert (Ha : forall (o : obj) (x : Z) n, 1 <= n -> costs h (q <~ alloc o ;; ret (q, x)) n anyPost).
  { intros o x n Hn. eapply costs_bind with (n1 := 1) (n2 := 0); [apply costs_alloc|lia|]. intros q h1 _. apply costs_ret. exact Logic.I. }
  inversion Hp as [? ? a Ho|? ? a b Ho|? ? r len Ho Hd|? ? m da Ho Hd Hch]; subst; (eapply costs_load_ok; [exact Ho|]); cbv beta iota.
  - destruct (eq a v); apply Ha; lia.
  - destruct (eq a v); [apply Ha; lia|]. destruct (eq b v); [apply Ha; lia|].
    eapply costs_bind with (n1 := 1) (n2 := splitCost d); [apply costs_newSlice|unfold splitCost; lia|]. intros sl h1 [Hsl _]. cbn in Hsl.
    eapply costs_bind with (n1 := splitCost d) (n2 := 0); [apply costs_split; lia|lia|]. intros q h2 _. apply costs_ret. exact Logic.I.
  - eapply costs_bind; [apply costs_elemsOf|apply Nat.le_refl|]. intros l h' [-> _]. destruct (indexOf _ l) as [i|].
    + eapply costs_bind with (n1 := 1) (n2 := 1); [apply costs_cloneSlice|lia|]. intros sl h1 _.
      eapply costs_bind with (n1 := 1) (n2 := 0); [apply costs_alloc|lia|]. intros q h2 _.
      eapply costs_bind with (n1 := 0) (n2 := 0); [apply costs_setSlot|lia|]. intros _ h3 _. apply costs_ret. exact Logic.I.
    + eapply costs_bind with (n1 := 1) (n2 := 2); [apply costs_append|lia|]. intros sl h1 _. unfold newCanonicalH, newTwigH.
      eapply costs_bind with (n1 := 2) (n2 := 0) (post := anyPost); [|lia|].
      * eapply costs_bind with (n1 := 1) (n2 := 1); [apply costs_alloc|lia|]. intros q h2 _. apply costs_canonicalTwig. auto.
      * intros [q|] h2 _; [apply costs_ret; exact Logic.I|apply costs_fail; discriminate].
  - destruct (childP da (h_hash hs)) as [c|] eqn:Ec.
    + eapply costs_bind; [apply IH; eauto| |].
      2:{ intros [x2 mt] h1 _. destruct (x2 =? c); [apply costs_ret; exact Logic.I|].
          eapply costs_bind with (n1 := 1) (n2 := 0); [apply costs_alloc|apply Nat.le_refl|]. intros q h2 _. apply costs_ret. exact Logic.I. }
      lia.
    + eapply costs_bind with (n1 := 1) (n2 := 1); [apply costs_alloc|lia|]. intros l h1 _.
      eapply costs_bind with (n1 := 1) (n2 := 0); [apply costs_alloc|lia|]. intros q h2 _. apply costs_ret. exact Logic.I.
Qed.

Lemma costs_withoutH fuel : forall p v d hs h, deep h p d ->
  costs h (withoutH grow fuel p v d hs) (4 * (maxTreeDepth - d) + 3) anyPost.
Proof.
  induction fuel as [|k IH]; intros p v d hs h Hp; cbn [withoutH]; [apply costs_fail; discriminate|].
  assert (Ha : forall (o : obj) (x : Z) n, 1 <= n -> costs h (q <~ alloc o ;; ret (Some q, x)) n anyPost).
  { intros o x n Hn. eapply costs_bind with (n1 := 1) (n2 := 0); [apply costs_alloc|lia|]. intros q h1 _. apply costs_ret. exact Logic.I. }
  assert (Hr : forall (x : option nat * Z) n h, costs h (ret x) n anyPost) by (intros; apply costs_ret; exact Logic.I).
  inversion Hp as [? ? a Ho|? ? a b Ho|? ? r len Ho Hd|? ? m da Ho Hd Hch]; subst; (eapply costs_load_ok; [exact Ho|]); cbv beta iota.
  - destruct (veq a v); apply Hr.
  - destruct (veq a v); [apply Ha; lia|]. destruct (veq b v); [apply Ha; lia|apply Hr].
  - eapply costs_bind; [apply costs_elemsOf|apply Nat.le_refl|]. intros l h' [-> _]. destruct (indexOf _ l) as [i|]; [|apply Hr].
    eapply costs_bind with (n1 := 1) (n2 := 2); [apply costs_cloneSlice|lia|]. intros sl h1 _.
    eapply costs_bind with (n1 := 1) (n2 := 1); [apply costs_alloc|lia|]. intros q h2 _.
    eapply costs_bind with (n1 := 0) (n2 := 1) (post := anyPost); [|lia|].
    + destruct (i =? snd sl); [apply costs_ret; exact Logic.I|]. eapply costs_weaken; [apply costs_setSlot|lia|]. intros; exact Logic.I.
    + intros _ h3 _. eapply costs_bind with (n1 := 1) (n2 := 0); [apply costs_canonicalTwig; auto|lia|]. intros; apply Hr.
  - destruct (childP da (h_hash hs)) as [c|] eqn:Ec; [|apply Hr].
    eapply costs_bind with (n2 := 4); [apply IH; eauto|lia|]. intros [x2 mt] h1 _. destruct (ptr_eqb x2 (Some c)); [apply Hr|].
    eapply costs_bind with (n1 := 1) (n2 := 3); [apply costs_alloc|lia|]. intros q h2 _.
    eapply costs_bind with (n1 := 3) (n2 := 0); [apply costs_canonicalBranch|lia|]. intros; apply Hr.
Qed.

Lemma costs_addH fuel : forall eq f p v d hs h, deep h p d ->
  costs h (addH grow fuel eq f p v d hs) (4 * (maxTreeDepth - d) + 2) anyPost.
Proof.
  induction fuel as [|k IH]; intros eq f p v d hs h Hp; cbn [addH]; [apply costs_fail; discriminate|].
  assert (Hs : forall q (o : obj) (x : nat * Z) n h, costs h (_ <~ store q o ;; ret x) n anyPost).
  { intros q o x n h0. eapply costs_bind with (n1 := 0) (n2 := 0); [apply costs_store|lia|]. intros _ h1 _. apply costs_ret. exact Logic.I. }
  inversion Hp as [? ? a Ho|? ? a b Ho|? ? r len Ho Hd|? ? m da Ho Hd Hch]; subst; (eapply costs_load_ok; [exact Ho|]); cbv beta iota.
  - destruct (eq a v); [apply Hs|].
    eapply costs_bind with (n1 := 1) (n2 := 0); [apply costs_alloc|lia|]. intros q h1 _. apply costs_ret. exact Logic.I.
  - destruct (eq a v); [apply Hs|]. destruct (eq b v); [apply Hs|].
    eapply costs_bind with (n1 := 1) (n2 := splitCost d); [apply costs_newSlice|unfold splitCost; lia|]. intros sl h1 [Hsl _]. cbn in Hsl.
    eapply costs_bind with (n1 := splitCost d) (n2 := 0); [apply costs_split; lia|lia|]. intros q h2 _. apply costs_ret. exact Logic.I.
  - eapply costs_bind; [apply costs_elemsOf|apply Nat.le_refl|]. intros l h' [-> _]. destruct (indexOf _ l) as [i|].
    + eapply costs_bind with (n1 := 0) (n2 := 0); [apply costs_setSlot|lia|]. intros _ h1 _. apply costs_ret. exact Logic.I.
    + eapply costs_bind; [apply costs_loadArr|apply Nat.le_refl|]. intros a h' [-> _].
      rewrite (proj2 (Nat.leb_le maxTreeDepth d) Hd), orb_true_r.
      eapply costs_bind with (n1 := 1) (n2 := 1); [apply costs_append|lia|]. intros sl h1 _. apply Hs.
  - destruct (childP da (h_hash hs)) as [c|] eqn:Ec.
    + eapply costs_bind with (n2 := 0); [apply IH; eauto|lia|]. intros [q mt] h1 _. cbn zeta. apply Hs.
    + eapply costs_bind with (n1 := 1) (n2 := 1); [apply costs_alloc|lia|]. intros l h1 _. cbn zeta. apply Hs.
Qed.

Lemma costs_removeH fuel : forall p v d hs h, deep h p d ->
  costs h (removeH grow fuel p v d hs) (2 * (maxTreeDepth - d) + 1) anyPost.
Proof.
  induction fuel as [|k IH]; intros p v d hs h Hp; cbn [removeH]; [apply costs_fail; discriminate|].
  assert (Ha : forall (o : obj) (x : Z) n, 1 <= n -> costs h (q <~ alloc o ;; ret (Some q, x)) n anyPost).
  { intros o x n Hn. eapply costs_bind with (n1 := 1) (n2 := 0); [apply costs_alloc|lia|]. intros q h1 _. apply costs_ret. exact Logic.I. }
  assert (Hr : forall (x : option nat * Z) n h, costs h (ret x) n anyPost) by (intros; apply costs_ret; exact Logic.I).
  inversion Hp as [? ? a Ho|? ? a b Ho|? ? r len Ho Hd|? ? m da Ho Hd Hch]; subst; (eapply costs_load_ok; [exact Ho|]); cbv beta iota.
  - destruct (veq a v); apply Hr.
  - destruct (veq a v); [apply Ha; lia|]. destruct (veq b v); [apply Ha; lia|apply Hr].
  - eapply costs_bind; [apply costs_elemsOf|apply Nat.le_refl|]. intros l h' [-> _]. destruct (indexOf _ l) as [i|]; [|apply Hr].
    cbn zeta. destruct (len - 1 =? 0); [apply Hr|].
    eapply costs_bind with (n1 := 0) (n2 := 1) (post := anyPost); [|lia|].
    + destruct (i <? len - 1); [|apply costs_ret; exact Logic.I]. eapply costs_weaken; [apply costs_setSlot|lia|]. intros; exact Logic.I.
    + intros _ h1 _. eapply costs_bind; [apply costs_loadArr|apply Nat.le_refl|]. intros a h' [-> _].
      eapply costs_bind with (n1 := 0) (n2 := 1); [apply costs_storeArr|lia|]. intros _ h2 _.
      eapply costs_bind with (n1 := 0) (n2 := 1); [apply costs_store|lia|]. intros _ h3 _.
      eapply costs_bind with (n1 := 1) (n2 := 0); [apply costs_canonicalTwig; auto|lia|]. intros; apply Hr.
  - destruct (childP da (h_hash hs)) as [c|] eqn:Ec; [|apply Hr].
    eapply costs_bind with (n2 := 2); [apply IH; eauto|lia|]. intros [x mt] h1 _. cbn zeta.
    eapply costs_bind with (n1 := 1) (n2 := 1); [apply costs_alloc|lia|]. intros q h2 _.
    eapply costs_bind with (n1 := 0) (n2 := 1) (post := anyPost); [|lia|].
    + destruct x as [x|]; [|apply costs_ret; exact Logic.I]. eapply costs_bind; [apply costs_load|apply Nat.le_refl|].
      intros o h' _. apply costs_ret. exact Logic.I.
    + intros on h3 _.
      assert (Hw : costs h3 (d0 <~ appendToH walkFuel maxLeafLen q [];;
                     match d0 with
                     | Some es => l <~ newLeafH es;; ret (Some l, mt)
                     | None => ret (Some q, mt)
                     end) 1 anyPost).
      { eapply costs_bind; [apply (proj1 (costs_appendTo walkFuel maxLeafLen)); cbn; lia|apply Nat.le_refl|].
        intros [es|] h' _; [|apply Hr]. unfold newLeafH.
        eapply costs_bind with (n1 := 1) (n2 := 0) (post := anyPost); [|lia|intros; apply Hr].
        destruct es as [|a [|b [|]]]; try (apply costs_fail; discriminate); (eapply costs_weaken; [apply costs_alloc|lia|intros; exact Logic.I]). }
      destruct on as [[| | |]|]; auto; apply Hr.
Qed.

(** ** Lookups visit one node per level *)

Lemma getH_levels fuel : forall p v d hs h, deep h p d -> maxTreeDepth - d < fuel ->
  fst (getH fuel p v hs h) <> Fuel /\ forall k, getH (fuel + k) p v hs h = getH fuel p v hs h.
Proof.
  induction fuel as [|n IH]; intros p v d hs h Hp Hf; [lia|]. cbn [getH Nat.add]. unfold bindM, load.
  inversion Hp as [? ? a Ho|? ? a b Ho|? ? r len Ho Hd|? ? m da Ho Hd Hch]; subst; rewrite Ho.
  - split; [discriminate|reflexivity].
  - split; [discriminate|reflexivity].
  - split; [|reflexivity]. unfold elemsOf, bindM, loadArr. cbn [fst]. destruct (nth_error (h_arrs h) r); discriminate.
  - destruct (childP da (h_hash hs)) as [c|] eqn:Ec; [|split; [discriminate|reflexivity]]. apply (IH c v (S d)); eauto. lia.
Qed.

(** ** Removing what is not there *)

Lemma find_findIndex (q : T -> bool) l : find q l = None -> findIndex q l = None.
Proof. induction l as [|a l IH]; cbn; auto. destruct (q a); [discriminate|]. intros H. rewrite IH; auto. Qed.

Lemma withoutH_absent fuel : forall p v d hs h h', getH fuel p v hs h = (Ok None, h') ->
  withoutH grow fuel p v d hs h = (Ok (Some p, 0%Z), h).
Proof.
  induction fuel as [|k IH]; intros p v d hs h h' H; [discriminate|]. cbn [getH withoutH] in *. unfold bindM, load in *.
  destruct (nth_error (h_objs h) p) as [[a|a b|r len|m da]|]; try discriminate.
  - destruct (veq a v); [discriminate|reflexivity].
  - destruct (veq a v); [discriminate|]. destruct (veq b v); [discriminate|reflexivity].
  - unfold elemsOf, bindM, loadArr in *. cbn [fst snd] in *. destruct (nth_error (h_arrs h) r) as [a|]; [|discriminate].
    cbn [ret] in *. inversion H as [[H1 H2]]. unfold indexOf. rewrite (find_findIndex _ _ H1). reflexivity.
  - destruct (childP da (h_hash hs)) as [c|]; [|reflexivity]. rewrite (IH _ _ (S d) _ _ _ H). cbn [ptr_eqb]. rewrite Nat.eqb_refl. reflexivity.
Qed.

Lemma tH_without_absent (t : ptree) v h h' : tH_get t v h = (Ok None, h') -> tH_without grow t v h = (Ok t, h).
Proof.
  unfold tH_get, tH_without. destruct t as [[p|] c]; cbn [pt_root pt_count]; [|reflexivity]. intros H.
  rewrite (bindM_ok _ _ _ _ _ (withoutH_absent _ _ _ 0 _ _ _ H)). rewrite Z.sub_0_r. reflexivity.
Qed.

End Alloc.
