(** * HeapWrite: what the operations on sets write.

    With and Combine assign to no existing object. The only existing memory they assign to are array slots, through
    [append] (twig.go:303, twig.go:124); where that overwrites no slot in use, these are slots that belong to no set.
    Where no three elements share a hash they write only memory they have allocated themselves, as all other operations
    on sets always do. *)
From Verif Require Import Base Bits Env EnvFacts Node NodeWf NodeAdd Tree TreeFacts.
From Verif Require Import HeapModel HeapFrame HeapOwn HeapRep HeapSim HeapSim2 HeapProg HeapProgSim HeapQuiet.
Local Open Scope nat_scope.

(** ** Reachable memory *)

Section Reach.
Context {T : Type}.
Notation heap := (heap (T := T)).

(** The memory of the node at [p]: its objects, and the slots of its twigs. *)
Inductive reachN (h : heap) : nat -> loc -> Prop :=
| reach_obj p o : nth_error (h_objs h) p = Some o -> reachN h p (WObj p)
| reach_slot p r len i : nth_error (h_objs h) p = Some (OTwig r len) -> i < len -> reachN h p (WSlot r i)
| reach_child p m d c w : nth_error (h_objs h) p = Some (OBranch m d) -> In (Some c) d -> reachN h c w -> reachN h p w.

(** The memory of a set. *)
Definition reachT (h : heap) (t : ptree) (w : loc) : Prop := exists p, pt_root t = Some p /\ reachN h p w.

(** The locations assigned to between two moments. *)
Definition written (h h' : heap) : list loc := skipn (length (h_log h)) (h_log h').

Lemma written_app (h h' : heap) l : h_log h' = h_log h ++ l -> written h h' = l.
Proof. intros H. unfold written. rewrite H, skipn_app, skipn_all, Nat.sub_diag. reflexivity. Qed.

Lemma reachN_region (P Q : nat -> Prop) h p w : closed P Q h -> reachN h p w -> P p -> locIn P Q w.
Proof.
  intros Hc Hr. induction Hr as [p o Ho|p r len i Ho Hi|p m d c w Ho Hin Hr IH]; intros Hp; cbn; auto.
  - exact (Hc p _ Hp Ho).
  - apply IH. exact (Hc p _ Hp Ho c Hin).
Qed.

(** A region nothing of which was written. *)
Lemma stable_written h h' t w : stable h h' t -> reachT h t w -> ~ In w (written h h').
Proof.
  intros (P & Q & Hr & Hc & _ & _ & l & H1 & H2) (p & Hp & Hw) Hin. rewrite (written_app _ _ _ H1) in Hin.
  rewrite Forall_forall in H2. apply (H2 w Hin). eapply reachN_region; eauto.
Qed.

End Reach.

(** ** With and Combine *)

Section Spare.
Context {E : Env} {T : Type} {K : Key T} (grow : nat -> nat -> nat).
Notation heap := (heap (T := T)).
Notation M := (M (T := T)).
Local Opaque maxTreeDepth fanout fb.

(** A location that was in use in [h] by no object and no twig. *)
Definition spareIn (h : heap) (w : loc) : Prop :=
  match w with
  | WObj p => length (h_objs h) <= p
  | WSlot r i => forall a, nth_error (h_arrs h) r = Some a -> a_used a <= i
  | WGhost r => length (h_arrs h) <= r
  end.

(** All old objects are as they were, and assignments were made to locations not in use only. *)
Definition spared (hb h : heap) : Prop :=
  (exists l, h_objs h = h_objs hb ++ l) /\ length (h_arrs hb) <= length (h_arrs h) /\
  (forall r a, nth_error (h_arrs hb) r = Some a -> exists a', nth_error (h_arrs h) r = Some a' /\ a_used a <= a_used a') /\
  (exists l, h_log h = h_log hb ++ l /\ Forall (spareIn hb) l).

Lemma spared_refl h : spared h h.
Proof.
  split; [exists []; rewrite app_nil_r; auto|]. split; [auto|]. split; [eauto|]. exists []. rewrite app_nil_r. auto.
Qed.

Lemma spared_add hb h h' : spared hb h -> addonly h h' -> spared hb h'.
Proof.
  intros ([l1 A1] & A2 & A3 & l2 & A4 & A5) ([m1 B1] & [m2 B2] & m3 & B3 & B4). split; [|split; [|split]].
  - exists (l1 ++ m1). rewrite B1, A1, app_assoc. auto.
  - rewrite B2, app_length. lia.
  - intros r a Ha. destruct (A3 r a Ha) as (a' & H1 & H2). exists a'. split; auto. rewrite B2, nth_error_app1; auto. eapply lt_nth; eauto.
  - exists (l2 ++ m3). rewrite B3, A4, app_assoc. split; auto. apply Forall_app. split; auto. eapply Forall_impl; [|exact B4].
    intros [p|r i|r]; cbn.
    + rewrite A1, app_length. lia.
    + intros Hr a Ha. apply lt_nth in Ha. lia.
    + lia.
Qed.

(** As long as no slot in use is overwritten, [m] keeps to the locations not in use. *)
Definition frugal (hb : heap) {A} (m : M A) (post : A -> Prop) : Prop := forall h, spared hb h -> h_over (snd (m h)) = h_over h ->
  spared hb (snd (m h)) /\ (forall a, fst (m h) = Ok a -> post a).

Lemma fr_weaken hb {A} (m : M A) (post post' : A -> Prop) : frugal hb m post -> (forall a, post a -> post' a) -> frugal hb m post'.
Proof. intros H1 H2 h Hs Ho. destruct (H1 h Hs Ho). auto. Qed.
Lemma fr_adds hb {A} (m : M A) : adds m -> frugal hb m (fun _ => True).
Proof. intros H h Hs Ho. split; [|auto]. eapply spared_add; [exact Hs|apply H]. Qed.
Lemma fr_ret hb {A} (a : A) (post : A -> Prop) : post a -> frugal hb (ret a) post.
Proof. intros H h Hs Ho. split; [exact Hs|]. intros b [= <-]. auto. Qed.
Lemma fr_fail hb {A} (r : res A) (post : A -> Prop) : (forall a, r <> Ok a) -> frugal hb (fail r) post.
Proof. intros H h Hs Ho. split; [exact Hs|]. intros b Hb. contradiction (H b). Qed.
Lemma fr_bind hb {A B} (m : M A) (k : A -> M B) post post' : mono m -> (forall a, mono (k a)) -> frugal hb m post ->
  (forall a, post a -> frugal hb (k a) post') -> frugal hb (bindM m k) post'.
Proof.
  intros Mm Mk Hm Hk h Hs Ho. specialize (Mm h). specialize (Hm h Hs). unfold bindM in *. destruct (m h) as [[a| |] h1]; cbn [fst snd] in *.
  - specialize (Mk a h1). destruct Hm as [S1 P1]; [lia|]. apply (Hk a (P1 a eq_refl) h1 S1). lia.
  - destruct Hm as [S1 _]; [lia|]. split; auto. discriminate.
  - destruct Hm as [S1 _]; [lia|]. split; auto. discriminate.
Qed.

(** An array that did not exist in [hb]. *)
Definition newArr (hb : heap) (sl : slice) : Prop := length (h_arrs hb) <= fst sl.

Lemma fr_newSlice hb data : frugal hb (newSlice data) (newArr hb).
Proof.
  intros h Hs Ho. split; [eapply spared_add; [exact Hs|apply adds_newSlice]|]. intros sl [= <-]. unfold newArr. cbn. apply Hs.
Qed.
Lemma fr_cloneSlice hb sl : frugal hb (cloneSlice sl) (newArr hb).
Proof.
  unfold cloneSlice. eapply fr_bind; [apply mono_elemsOf|intros; apply mono_newSlice|apply fr_adds, adds_elemsOf|]. intros l _. apply fr_newSlice.
Qed.
Lemma fr_setSlot hb sl i v : newArr hb sl -> frugal hb (setSlot sl i v) (fun _ => True).
Proof.
  intros Hn h Hs Ho. split; [|auto]. unfold setSlot, bindM, loadArr in *. destruct (nth_error (h_arrs h) (fst sl)) as [a|] eqn:Ea; [|exact Hs].
  cbn [fst snd storeArr] in *. destruct Hs as ([l1 A1] & A2 & A3 & l2 & A4 & A5). unfold newArr in Hn.
  split; [eauto|]. cbn [h_arrs h_log]. split; [rewrite set_nth_length; lia|]. split.
  - intros r a' Ha. rewrite nth_error_set_nth_ne; auto. apply lt_nth in Ha. lia.
  - exists (l2 ++ [WSlot (fst sl) i]). rewrite A4, app_assoc. split; auto. apply Forall_app. split; auto. constructor; auto. cbn.
    intros a' Ha. apply lt_nth in Ha. lia.
Qed.

Lemma fr_append hb sl v : frugal hb (append grow sl v) (fun sl' => newArr hb sl -> newArr hb sl').
Proof.
  intros h Hs Ho. destruct sl as [r len]. unfold append, bindM, loadArr in *. destruct (nth_error (h_arrs h) r) as [a|] eqn:Ea; [|split; [exact Hs|discriminate]].
  destruct (Nat.ltb_spec len (a_cap a)) as [Hc|Hc].
  - cbn [countOver storeArr fst snd ret h_over h_objs h_arrs h_log] in *. destruct (Nat.ltb_spec len (a_used a)) as [Hu|Hu]; [cbn in Ho; lia|].
    split; [|intros sl' [= <-]; auto]. destruct Hs as ([l1 A1] & A2 & A3 & l2 & A4 & A5). split; [eauto|]. cbn [h_arrs h_log].
    split; [rewrite set_nth_length; lia|]. split.
    + intros r' a' Ha. destruct (A3 r' a' Ha) as (b & H1 & H2). destruct (Nat.eq_dec r r') as [<-|Hn].
      * rewrite nth_error_set_nth_eq by (eapply lt_nth; eauto). eexists. split; [reflexivity|]. cbn. assert (b = a) by congruence. subst b. lia.
      * rewrite nth_error_set_nth_ne by auto. eauto.
    + exists (l2 ++ [WSlot r len]). rewrite A4, app_assoc. split; auto. apply Forall_app. split; auto. constructor; auto. cbn.
      intros a' Ha. destruct (A3 r a' Ha) as (b & H1 & H2). assert (b = a) by congruence. subst b. lia.
  - split; [|intros sl' [= <-] _; unfold newArr; cbn; apply Hs]. eapply spared_add; [exact Hs|]. cbn. split; [|split]; cbn.
    + exists []. rewrite app_nil_r. auto.
    + eauto.
    + exists []. rewrite app_nil_r. auto.
Qed.

Lemma adds_newBranch p : adds (newBranchH (T := T) p).
Proof. apply adds_alloc. Qed.
Lemma adds_newTwig sl : adds (newTwigH (T := T) sl).
Proof. apply adds_alloc. Qed.
Lemma adds_newBranchFrom fuel depth sl : adds (newBranchFromH grow fuel depth sl).
Proof.
  destruct (Nat.leb_spec maxTreeDepth depth) as [Hd|Hd].
  - unfold newBranchFromH, newBranchFromH_with. rewrite (proj2 (Nat.leb_le _ _) Hd). apply adds_newTwig.
  - apply adds_safe. intros P Q. eapply safe_weaken; [apply safe_newBranchFrom; lia|auto].
Qed.
Lemma adds_canonicalTwig fuel depth p sl : adds (canonicalTwigH grow fuel depth p sl).
Proof.
  unfold canonicalTwigH. apply adds_bind; [apply adds_elemsOf|]. intros [|a [|b [|c l]]];
    try (apply adds_bind; [apply adds_alloc|intros; apply adds_ret]); try apply adds_ret.
  destruct (_ || _)%bool; [apply adds_ret|]. apply adds_bind; [apply adds_newBranchFrom|intros; apply adds_ret].
Qed.
Lemma adds_newCanonical fuel depth sl : adds (newCanonicalH grow fuel depth sl).
Proof. apply adds_bind; [apply adds_newTwig|]. intros p. apply adds_canonicalTwig. Qed.
Lemma adds_dropped fuel args depth l rest : adds (combineTwigH_dropped grow fuel args depth l rest).
Proof. apply adds_safe. intros. apply safe_combineTwig_dropped. Qed.

Local Ltac anymono := eapply mono_safe.
Lemma mono_append sl (v : T) : mono (append grow sl v).
Proof. anymono. apply safe_append. auto. Qed.
Lemma mono_newCanonical fuel depth sl : mono (newCanonicalH grow fuel depth sl).
Proof. anymono. apply safe_newCanonical. auto. Qed.
Lemma mono_newBranchFrom fuel depth sl : mono (newBranchFromH grow fuel depth sl).
Proof. anymono. apply safe_newBranchFrom. auto. Qed.
Lemma mono_cloneSlice sl : mono (cloneSlice (T := T) sl).
Proof. anymono. apply safe_cloneSlice. Qed.
Lemma mono_withH fuel eq f p v depth h : mono (withH grow fuel eq f p v depth h).
Proof. anymono. apply safe_withH. auto. Qed.
Lemma mono_with2H fuel args p a b depth : mono (with2H grow fuel args p a b depth).
Proof. unfold with2H. apply mono_bind; [apply mono_withH|]. intros [q m]. apply mono_bind; [apply mono_withH|]. intros [q2 m2]. apply mono_ret. Qed.
Lemma mono_combineH fuel args p p2 depth : mono (combineH grow fuel args p p2 depth).
Proof. anymono. apply safe_combineH; auto. Qed.
Lemma mono_dropped fuel args depth l rest : mono (combineTwigH_dropped grow fuel args depth l rest).
Proof. anymono. apply safe_combineTwig_dropped. Qed.
Lemma mono_scan fuel args depth ndata sl cloned matches : mono (combineTwigH_scan grow fuel args depth sl cloned ndata matches).
Proof. anymono. apply safe_combineTwig_scan; auto. Qed.

Local Ltac mn := repeat first
  [ apply mono_ret | apply mono_fail | apply mono_alloc | apply mono_load | apply mono_elemsOf | apply mono_newSlice | apply mono_setSlot
  | apply mono_append | apply mono_newCanonical | apply mono_newBranchFrom | apply mono_cloneSlice | apply mono_withH | apply mono_with2H
  | apply mono_combineH | apply mono_dropped | apply mono_scan | apply mono_bind
  | match goal with |- mono (match ?x with _ => _ end) => destruct x | |- forall _, _ => intro | |- mono _ => progress (cbv beta zeta) end ].

Local Ltac ad := solve [repeat first
  [ apply adds_ret | apply adds_fail | apply adds_alloc | apply adds_load | apply adds_elemsOf | apply adds_newSlice | apply adds_newTwig
  | apply adds_newBranch | apply adds_newCanonical | apply adds_newBranchFrom | apply adds_dropped | apply adds_bind
  | match goal with |- adds (match ?x with _ => _ end) => destruct x | |- forall _, _ => intro | |- adds _ => progress (cbv beta zeta) end ]].

Lemma fr_withH hb fuel : forall eq f p v depth h, frugal hb (withH grow fuel eq f p v depth h) (fun _ => True).
Proof.
  induction fuel as [|k IH]; intros eq f p v depth h; cbn [withH]; [apply fr_fail; discriminate|].
  eapply fr_bind; [mn|mn; unfold newTwigH, newBranchH; mn|apply fr_adds, adds_load|]. intros [a|a b|r len|m d] _.
  - apply fr_adds. ad.
  - apply fr_adds. ad.
  - eapply fr_bind; [mn|mn; unfold newTwigH; mn|apply fr_adds, adds_elemsOf|]. intros l _. destruct (indexOf _ l) as [i|].
    + eapply fr_bind; [mn|mn; unfold newTwigH; mn|apply fr_cloneSlice|]. intros sl Hsl.
      eapply fr_bind; [unfold newTwigH; mn|mn|apply fr_adds, adds_newTwig|]. intros q _.
      eapply fr_bind; [mn|mn|apply fr_setSlot; auto|]. intros _ _. apply fr_ret. auto.
    + eapply fr_bind; [mn|mn|apply fr_append|]. intros sl _. apply fr_adds. ad.
  - cbv zeta. destruct (childP d (h_hash h)) as [c|].
    + eapply fr_bind; [mn|mn; unfold newBranchH; mn|apply IH|]. intros [q m'] _. apply fr_adds. ad.
    + apply fr_adds. ad.
Qed.

Lemma fr_with2H hb fuel args p a b depth : frugal hb (with2H grow fuel args p a b depth) (fun _ => True).
Proof.
  unfold with2H. eapply fr_bind; [mn|mn|apply fr_withH|]. intros [q m1] _. eapply fr_bind; [mn|mn|apply fr_withH|]. intros [q2 m2] _.
  apply fr_ret. auto.
Qed.

Lemma fr_scan hb fuel args depth ndata : forall sl cloned matches, (cloned = true -> newArr hb sl) ->
  frugal hb (combineTwigH_scan grow fuel args depth sl cloned ndata matches) (fun _ => True).
Proof.
  induction ndata as [|e rest IH]; intros sl cloned matches Hc; cbn [combineTwigH_scan]; [apply fr_ret; auto|].
  eapply fr_bind; [mn|mn|apply fr_adds, adds_elemsOf|]. intros l _. destruct (indexOf _ l) as [j|].
  - eapply (fr_bind _ _ _ (newArr hb)); [mn|mn| |].
    { destruct cloned; [apply fr_ret; auto|apply fr_cloneSlice]. }
    intros sl' Hsl. eapply fr_bind; [mn|mn|apply fr_setSlot; auto|]. intros _ _. apply IH. auto.
  - destruct (snd sl <? maxLeafLen).
    + eapply fr_bind; [mn|mn|apply fr_append|]. intros sl' Hsl. apply IH. auto.
    + eapply fr_bind; [mn|mn|apply fr_adds, adds_dropped|]. intros m _. apply IH. auto.
Qed.

Lemma fr_parallel hb g depth mask (f : nat -> M (option nat * Z)) : (forall i, mono (f i)) ->
  (forall i, frugal hb (f i) (fun _ => True)) -> frugal hb (parallelH g depth mask f) (fun _ => True).
Proof.
  intros Hm Hf. unfold parallelH. generalize (par_order g depth mask) 0%Z emptyDataP.
  intros order. induction order as [|i order IH]; intros m data; cbn [parallelH_loop]; [apply fr_ret; auto|].
  eapply fr_bind; [auto| |apply Hf|].
  - intros [r m']. clear IH. generalize (m + m')%Z (set_nth data i r). induction order as [|j order IH]; intros m2 data2; cbn [parallelH_loop]; [apply mono_ret|].
    apply mono_bind; [auto|]. intros [r2 m3]. apply IH.
  - intros [r m'] _. apply IH.
Qed.

Lemma mono_parallel g depth mask (f : nat -> M (option nat * Z)) : (forall i, mono (f i)) -> mono (parallelH g depth mask f).
Proof.
  intros Hf. unfold parallelH. generalize (par_order g depth mask) 0%Z emptyDataP.
  intros order. induction order as [|i order IH]; intros m data; cbn [parallelH_loop]; [apply mono_ret|].
  apply mono_bind; [auto|]. intros [r m']. apply IH.
Qed.

Lemma adds_combineLeaf1 args (a b : T) : adds (combineLeaf1H args a b).
Proof. unfold combineLeaf1H. ad. Qed.
Lemma adds_combineLeaf21 fuel args depth (a b c : T) : adds (combineLeaf21H grow fuel args depth a b c).
Proof. unfold combineLeaf21H. ad. Qed.
Lemma adds_combineLeaf2 fuel args depth (a b c d : T) : adds (combineLeaf2H grow fuel args depth a b c d).
Proof.
  unfold combineLeaf2H, combineLeaf2H_step. destruct (c_eq args a c), (c_eq args b d), (c_eq args a d), (c_eq args b c); ad.
Qed.

Lemma mono_combineLeaf1 args (a b : T) : mono (combineLeaf1H args a b).
Proof. anymono. apply safe_combineLeaf1; auto. Qed.
Lemma mono_combineLeaf21 fuel args depth (a b c : T) : mono (combineLeaf21H grow fuel args depth a b c).
Proof. anymono. apply safe_combineLeaf21; auto. Qed.
Lemma mono_combineLeaf2 fuel args depth (a b c d : T) : mono (combineLeaf2H grow fuel args depth a b c d).
Proof. anymono. apply safe_combineLeaf2; auto. Qed.
Lemma mono_combineTwig fuel args depth sl sl2 : mono (combineTwigH grow fuel args depth sl sl2).
Proof. unfold combineTwigH. mn. Qed.
Local Ltac mc := repeat first [apply mono_combineLeaf1|apply mono_combineLeaf21|apply mono_combineLeaf2|apply mono_combineTwig
  |apply mono_parallel|progress mn|progress (unfold newBranchH)|intro].

Lemma fr_combineH hb fuel : forall args p p2 depth, frugal hb (combineH grow fuel args p p2 depth) (fun _ => True).
Proof.
  induction fuel as [|k IH]; intros args p p2 depth; [apply fr_fail; discriminate|].
  cbn [combineH]. eapply fr_bind; [mn|mc|apply fr_adds, adds_load|]. intros o _. eapply fr_bind; [mn|mc|apply fr_adds, adds_load|]. intros o2 _.
  destruct o as [a|a b|r len|m d], o2 as [a2|a2 b2|r2 len2|m2 d2]; try (apply fr_fail; discriminate);
    try (apply fr_adds; first [apply adds_combineLeaf1|apply adds_combineLeaf21|apply adds_combineLeaf2]); try apply fr_withH; try apply fr_with2H.
  - unfold combineTwigH. eapply fr_bind; [mn|mn|apply fr_adds, adds_elemsOf|]. intros l _.
    eapply fr_bind; [mn|mn|apply fr_scan; discriminate|]. intros [sl' m] _. apply fr_adds. ad.
  - assert (Hm : forall i, mono (match childP d i, childP d2 i with
               | None, y => ret (y, 0%Z) | x, None => ret (x, 0%Z)
               | Some x, Some y => '(r, m) <~ combineH grow k (c_sub i args) x y (S depth) ;; ret (Some r, m) end)) by (intros i; mn).
    eapply fr_bind; [apply mono_parallel; exact Hm|unfold newBranchH; mn| |].
    + apply fr_parallel; [exact Hm|]. intros i. destruct (childP d i) as [x|], (childP d2 i) as [y|]; try (apply fr_ret; auto).
      eapply fr_bind; [mn|mn|apply IH|]. intros [q m'] _. apply fr_ret; auto.
    + intros [data matches] _. apply fr_adds. ad.
Qed.

Lemma fr_tH_with hb t v : frugal hb (tH_with grow t v) (fun _ => True).
Proof.
  unfold tH_with. destruct (pt_root t) as [p|]; [|apply fr_adds; ad]. eapply fr_bind; [mn|mn|apply fr_withH|]. intros [r m] _. apply fr_ret; auto.
Qed.
Lemma fr_tH_combine hb args t u : frugal hb (tH_combine grow args t u) (fun _ => True).
Proof.
  unfold tH_combine. destruct (pt_root t) as [p|], (pt_root u) as [p2|]; try (apply fr_ret; auto).
  eapply fr_bind; [mn|mn|apply fr_combineH|]. intros [r m] _. apply fr_ret; auto.
Qed.

(** Every operation on sets keeps to locations not in use, as long as [append] overwrites no slot in use. *)
Lemma spared_self h h' : addonly h h' -> spared h h'.
Proof. intros H. eapply spared_add; [apply spared_refl|exact H]. Qed.

Theorem step_spared (st : state (T := T)) c : builderCmd c = false -> h_over (st_heap (step grow st c)) = h_over (st_heap st) ->
  spared (st_heap st) (st_heap (step grow st c)).
Proof.
  intros Hb Ho. destruct c as [|b v|b v|b|s v|s v|f s u|s u|s u|pred s]; try discriminate; cbn [step] in *;
    repeat match goal with |- context [nth_error ?l ?i] => destruct (nth_error l i) eqn:?; try apply spared_refl end;
    rewrite makeSet_heap in *.
  - apply (fr_tH_with (st_heap st)); [apply spared_refl|auto].
  - apply spared_self, adds_tH_without.
  - apply (fr_tH_combine (st_heap st)); [apply spared_refl|auto].
  - apply spared_self, adds_tH_difference.
  - apply spared_self, adds_tH_intersection.
  - apply spared_self, adds_tH_where.
Qed.

End Spare.

(** ** Locations in use *)

Section Used.
Context {E : Env} {EO : EnvOk E} {T : Type} {K : Key T} {vok : T -> Prop} {KO : KeyOk K vok} (grow : nat -> nat -> nat).
Notation heap := (heap (T := T)).
Notation M := (M (T := T)).
Notation node := (node T).
Local Opaque maxTreeDepth fanout fb.

Lemma reps_in (h : heap) d ds c : reps h d ds -> In (Some c) d -> exists i n, child ds i = Some n /\ rep h c n.
Proof.
  intros H Hin. apply In_nth_error in Hin as [i Hi]. assert (R := reps_child h d ds i H). unfold childP in R.
  rewrite (nth_error_nth _ _ _ Hi) in R. inversion R as [|p n Hn E1 E2]; subst. exists i, n. split; auto.
Qed.

Lemma rep_reach (h : heap) p n w : rep h p n -> reachN h p w -> ~ spareIn h w.
Proof.
  intros Hr Hw. revert n Hr. induction Hw as [p o Ho|p r len i Ho Hi|p m d c w Ho Hin Hw IH]; intros n Hr.
  - cbn. apply lt_nth in Ho. lia.
  - inversion Hr as [p0 a Hp|p0 a b Hp|p0 r0 l Hp Hl|p0 m da ds Hp Hds]; subst; try congruence.
    assert (r0 = r /\ length l = len) as [-> <-] by (split; congruence). destruct Hl as (a & Ha & Hu & _). cbn. intros H. specialize (H a Ha). lia.
  - inversion Hr as [p0 a Hp|p0 a b Hp|p0 r0 l Hp Hl|p0 m0 da ds Hp Hds]; subst; try congruence.
    assert (da = d) by congruence. subst da. destruct (reps_in _ _ _ _ Hds Hin) as (i & nc & _ & Hc). eauto.
Qed.

Lemma setRel_reach (h : heap) t u w : setRel (vok := vok) h t u -> reachT h t w -> ~ spareIn h w.
Proof.
  intros (Hr & _) (p & Hp & Hw). rewrite Hp in Hr. inversion Hr as [|q n Hn E1 E2]; subst. eapply rep_reach; eauto.
Qed.

(** ** Nothing but new memory *)

Hypothesis Hno : noTriple vok.

Lemma still_new (h : heap) (m : M ptree) : spared h (snd (m h)) ->
  (forall P Q : nat -> Prop, (forall p n d, rep h p n -> good (vok := vok) d n -> P p) -> safe P Q m (okPT P)) -> grows m -> addonly h (snd (m h)).
Proof.
  intros (S1 & S2 & _ & l & S3 & S4) Hm Hg.
  set (P := fun q => (exists n d, rep h q n /\ good (vok := vok) d n) \/ length (h_objs h) <= q).
  destruct (safe_roomy P (fun r => length (h_arrs h) <= r) m (okPT P) h) as (_ & (_ & _ & _ & W1 & _ & l' & W2 & W3) & _).
  - apply Hm. intros p n d H1 H2. left. eauto.
  - split; [|split; [intros p Hp; right; auto|auto]]. intros p o [(n & d & Hr & Hg')|Hp] Ho; [|apply lt_nth in Ho; lia].
    inversion Hr as [p0 a Hp|p0 a b Hp|p0 r l0 Hp Hl|p0 m0 da ds Hp Hds]; subst; rewrite Hp in Ho; injection Ho as <-; cbn; auto.
    + destruct (good_twig Hno _ _ Hg').
    + intros c Hc. destruct (reps_in _ _ _ _ Hds Hc) as (i & nc & Hi & Hrc). left. exists nc, (S d). split; auto.
      eapply good_child; eauto.
  - assert (l' = l) by (eapply app_inv_head; rewrite <- W2; auto). subst l'. split; [exact S1|]. split.
    + apply prefix_nth; [apply Hg|]. intros r Hr. apply W1. lia.
    + exists l. split; [exact S3|]. rewrite Forall_forall in *. intros [p|r i|r] Hin; cbn.
      * exact (S4 _ Hin).
      * exact (W3 _ Hin).
      * exact (W3 _ Hin).
Qed.

(** Where no three elements select the same child at every depth, With and Combine only add to the heap, too. *)
Theorem step_adds st ps c : related (vok := vok) st ps -> cmdOk (vok := vok) c -> builderCmd c = false ->
  addonly (st_heap st) (st_heap (step grow st c)).
Proof.
  intros Hr Hok Hb. assert (Ho := step_still grow Hno st ps c Hr Hok). assert (Hsp := step_spared grow st c Hb Ho).
  destruct Hr as (Hi & Hs & _).
  assert (HS : forall i t (P : nat -> Prop), nth_error (st_sets st) i = Some t ->
    (forall p n d, rep (st_heap st) p n -> good (vok := vok) d n -> P p) -> okPT P t).
  { intros i t P Ht HP p Hp. destruct (all2_nth _ _ _ _ _ Hs Ht) as (u & _ & (R1 & _ & R2)). rewrite Hp in R1.
    inversion R1 as [|q n Hn E1 E2]; subst. eapply HP; [exact Hn|]. eapply tok_good; eauto. }
  destruct c as [|b v|b v|b|s v|s v|f s u|s u|s u|pred s]; try discriminate; cbn [step] in *;
    (destruct (nth_error (st_sets st) s) as [t|] eqn:Es; [|apply addonly_refl]);
    try (destruct (nth_error (st_sets st) u) as [t'|] eqn:Eu; [|apply addonly_refl]);
    rewrite makeSet_heap in *; try (first [apply adds_tH_without|apply adds_tH_difference|apply adds_tH_intersection|apply adds_tH_where]).
  - apply still_new; auto; [|apply gr_tH_with]. intros P Q HP. apply safe_tH_with. eauto.
  - apply still_new; auto; [|apply gr_tH_combine]. intros P Q HP. apply safe_tH_combine; eauto.
Qed.

End Used.

(** ** Programs that start with the sets of others

    A program that uses existing sets, but only builders of its own, assigns to no memory that existed at its start. *)
Section Fresh.
Context {E : Env} {T : Type} {K : Key T} (grow : nat -> nat -> nat).
Notation heap := (heap (T := T)).
Notation M := (M (T := T)).
Local Opaque maxTreeDepth fanout fb.

(** No builder owns any of the first [n] objects and [m] arrays. *)
Definition tagFrom (n m : nat) (st : state (T := T)) : Prop := exists ob oa,
  tagged ob oa (st_heap st) /\
  (forall t, In t (st_sets st) -> rootIn ob 0 (st_heap st) t) /\
  (forall i t, nth_error (st_builders st) i = Some t -> rootIn ob (S i) (st_heap st) t) /\
  (forall p, p < n -> ob p = 0) /\ (forall r, r < m -> oa r = 0) /\ n <= length (h_objs (st_heap st)) /\ m <= length (h_arrs (st_heap st)).

Definition newFrom (n m : nat) : loc -> Prop := locIn (fun p => n <= p) (fun r => m <= r).

(** Same objects and arrays among the first [n] and [m], which were not assigned to. *)
Definition fresh (n m : nat) (h h' : heap) : Prop :=
  firstn n (h_objs h') = firstn n (h_objs h) /\ firstn m (h_arrs h') = firstn m (h_arrs h) /\
  exists l, h_log h' = h_log h ++ l /\ Forall (newFrom n m) l.

Lemma fresh_refl n m h : fresh n m h h.
Proof. split; auto. split; auto. exists []. rewrite app_nil_r. auto. Qed.
Lemma fresh_trans n m h1 h2 h3 : fresh n m h1 h2 -> fresh n m h2 h3 -> fresh n m h1 h3.
Proof.
  intros (A1 & A2 & l1 & A3 & A4) (B1 & B2 & l2 & B3 & B4). split; [congruence|]. split; [congruence|].
  exists (l1 ++ l2). rewrite B3, A3, app_assoc. split; auto. apply Forall_app. auto.
Qed.

Lemma firstn_same {A} n (l l' : list A) : n <= length l -> n <= length l' -> (forall i, i < n -> nth_error l' i = nth_error l i) -> firstn n l' = firstn n l.
Proof.
  revert l l'. induction n as [|n IH]; intros [|a l] [|b l'] H1 H2 H; cbn in *; auto; try lia.
  assert (Some b = Some a) as [= ->] by (apply (H 0); lia). f_equal. apply IH; try lia. intros i Hi. apply (H (S i)). lia.
Qed.

Lemma fresh_addonly n m h h' : n <= length (h_objs h) -> m <= length (h_arrs h) -> addonly h h' -> fresh n m h h'.
Proof.
  intros Hn Hm ([l1 A1] & [l2 A2] & l3 & A3 & A4). split; [|split].
  - rewrite A1, firstn_app, (proj2 (Nat.sub_0_le _ _) Hn), app_nil_r. auto.
  - rewrite A2, firstn_app, (proj2 (Nat.sub_0_le _ _) Hm), app_nil_r. auto.
  - exists l3. split; auto. eapply Forall_impl; [|exact A4]. intros [p|r i|r]; cbn; lia.
Qed.

Lemma makeSet_from n m st (x : M ptree) : tagFrom n m st -> grows x -> addonly (st_heap st) (snd (x (st_heap st))) ->
  (forall P Q : nat -> Prop, (forall t, In t (st_sets st) -> okPT P t) -> safe P Q x (okPT P)) ->
  tagFrom n m (makeSet st x) /\ fresh n m (st_heap st) (st_heap (makeSet st x)).
Proof.
  intros (ob & oa & Ht & Hs & Hb & F1 & F2 & F3 & F4) Hg Ha Hm.
  destruct (tag_run x okPT 0 ob oa (st_heap st) Hg Ht) as (T1 & T2 & T3 & T4 & _).
  { intros P Q HP. apply Hm. intros t Hin. eapply rootIn_okPT; eauto. }
  destruct (Hg (st_heap st)) as [G1 G2]. rewrite makeSet_heap.
  assert (HB : st_builders (makeSet st x) = st_builders st).
  { unfold makeSet. destruct (x (st_heap st)) as [[t| |] h']; reflexivity. }
  split; [|apply fresh_addonly; auto]. eexists _, _. rewrite makeSet_heap, HB. split; [exact T1|]. split; [|split; [|split; [|split; [|split; lia]]]].
  - assert (Hold : forall t, In t (st_sets st) -> rootIn (ext ob (length (h_objs (st_heap st))) 0) 0 (snd (x (st_heap st))) t).
    { intros t Hin. eapply rootIn_ext; eauto. }
    unfold makeSet. destruct (x (st_heap st)) as [[t| |] h'] eqn:Em; cbn [st_sets fst snd] in *; auto.
    intros t' Hin. apply in_app_or in Hin as [Hin|[<-|[]]]; auto. intros p Hp. exact (T4 t eq_refl p Hp).
  - intros i t Hi. eapply rootIn_ext; eauto.
  - intros p Hp. rewrite ext_old by lia. auto.
  - intros r Hr. rewrite ext_old by lia. auto.
Qed.

Lemma changeBuilder_from n m st b t0 (x : M ptree) : tagFrom n m st -> nth_error (st_builders st) b = Some t0 -> grows x ->
  (forall P Q : nat -> Prop, okPT P t0 -> safe P Q x (okPT P)) ->
  tagFrom n m (changeBuilder st b x) /\ fresh n m (st_heap st) (st_heap (changeBuilder st b x)).
Proof.
  intros (ob & oa & Ht & Hs & Hb & F1 & F2 & F3 & F4) Hb0 Hg Hm.
  destruct (tag_run x okPT (S b) ob oa (st_heap st) Hg Ht) as (T1 & T2 & T3 & T4 & l & T5 & T6).
  { intros P Q HP. apply Hm. eapply rootIn_okPT; eauto. }
  destruct (Hg (st_heap st)) as [G1 G2].
  assert (Hh : st_heap (changeBuilder st b x) = snd (x (st_heap st))).
  { unfold changeBuilder. destruct (x (st_heap st)) as [[t| |] h']; reflexivity. }
  assert (HS : st_sets (changeBuilder st b x) = st_sets st).
  { unfold changeBuilder. destruct (x (st_heap st)) as [[t| |] h']; reflexivity. }
  split.
  - eexists _, _. rewrite Hh, HS. split; [exact T1|]. split; [|split; [|split; [|split; [|split; lia]]]].
    + intros t Hin. eapply rootIn_ext; eauto.
    + assert (Hold : forall i t, nth_error (st_builders st) i = Some t ->
        rootIn (ext ob (length (h_objs (st_heap st))) (S b)) (S i) (snd (x (st_heap st))) t).
      { intros i t Hi. eapply rootIn_ext; eauto. }
      unfold changeBuilder. destruct (x (st_heap st)) as [[t| |] h'] eqn:Em; cbn [st_builders fst snd] in *; auto.
      intros i t' Hi. destruct (Nat.eq_dec b i) as [<-|Hn].
      * rewrite nth_error_set_nth_eq in Hi by (eapply lt_nth; eauto). injection Hi as <-.
        intros p Hp. exact (T4 t eq_refl p Hp).
      * rewrite nth_error_set_nth_ne in Hi by auto. auto.
    + intros p Hp. rewrite ext_old by lia. auto.
    + intros r Hr. rewrite ext_old by lia. auto.
  - rewrite Hh. split; [|split].
    + apply firstn_same; try lia. intros i Hi. apply T2; [lia|]. rewrite F1 by auto. discriminate.
    + apply firstn_same; try lia. intros i Hi. apply T3; [lia|]. rewrite F2 by auto. discriminate.
    + exists l. split; [exact T5|]. eapply Forall_impl; [|exact T6]. intros [p|r i|r]; cbn; intros H.
      * destruct (Nat.lt_ge_cases p n) as [Hp|Hp]; auto. rewrite F1 in H by auto. specialize (H ltac:(lia)). discriminate.
      * destruct (Nat.lt_ge_cases r m) as [Hp|Hp]; auto. rewrite F2 in H by auto. specialize (H ltac:(lia)). discriminate.
      * destruct (Nat.lt_ge_cases r m) as [Hp|Hp]; auto. rewrite F2 in H by auto. specialize (H ltac:(lia)). discriminate.
Qed.

(** One command, given that With and Combine only add to the heap. *)
Lemma step_from n m st c : tagFrom n m st -> (quietCmd c = false -> addonly (st_heap st) (st_heap (step grow st c))) ->
  tagFrom n m (step grow st c) /\ fresh n m (st_heap st) (st_heap (step grow st c)).
Proof.
  intros Hi Hq.
  assert (Hid : tagFrom n m st /\ fresh n m (st_heap st) (st_heap st)) by (split; [auto|apply fresh_refl]).
  destruct c as [|b v|b v|b|s v|s v|f s u|s u|s u|pred s]; cbn [step quietCmd] in *.
  - split; [|apply fresh_refl]. destruct Hi as (ob & oa & Ht & Hs & Hb & Hr). exists ob, oa.
    cbn [st_heap st_sets st_builders]. split; auto. split; auto. split; [|exact Hr]. intros i t Hn.
    destruct (Nat.lt_ge_cases i (length (st_builders st))) as [Hl|Hl].
    + rewrite nth_error_app1 in Hn by auto. eauto.
    + rewrite nth_error_app2 in Hn by auto. destruct (i - length (st_builders st)) as [|j]; [|destruct j; discriminate].
      injection Hn as <-. intros p Hp. discriminate.
  - destruct (nth_error (st_builders st) b) as [t0|] eqn:Eb; [|apply Hid].
    eapply changeBuilder_from; eauto; [apply gr_bH_add|]. intros. apply safe_bH_add; auto.
  - destruct (nth_error (st_builders st) b) as [t0|] eqn:Eb; [|apply Hid].
    eapply changeBuilder_from; eauto; [apply gr_bH_remove|]. intros. apply safe_bH_remove; auto.
  - destruct (nth_error (st_builders st) b) as [t0|] eqn:Eb; [|apply Hid]. split; [|apply fresh_refl].
    destruct Hi as (ob & oa & Ht & Hs & Hb & F1 & F2 & F3). set (re := fun k => if k =? S b then 0 else k).
    exists (fun p => re (ob p)), (fun r => re (oa r)). cbn [st_heap st_sets st_builders]. split; [|split; [|split; [|split; [|split; [|exact F3]]]]].
    + intros p o Hp. eapply points_imp; [exact (Ht p o Hp)| |]; cbv beta; intros x [Hx Ex]; (split; [auto|congruence]).
    + intros t Hin p Hp. apply in_app_or in Hin as [Hin|[<-|[]]].
      * destruct (Hs t Hin p Hp) as [Hl Hk]. split; auto. rewrite Hk. reflexivity.
      * destruct (Hb b t0 Eb p Hp) as [Hl Hk]. split; auto. rewrite Hk. unfold re. rewrite Nat.eqb_refl. auto.
    + intros i t Hn. destruct (Nat.eq_dec b i) as [<-|Hne].
      * rewrite nth_error_set_nth_eq in Hn by (eapply lt_nth; eauto). injection Hn as <-. intros p Hp. discriminate.
      * rewrite nth_error_set_nth_ne in Hn by auto. intros p Hp. destruct (Hb i t Hn p Hp) as [Hl Hk]. split; auto.
        rewrite Hk. unfold re. destruct (Nat.eqb_spec (S i) (S b)); congruence.
    + intros p Hp. rewrite F1 by auto. reflexivity.
    + intros p Hp. rewrite F2 by auto. reflexivity.
  - destruct (nth_error (st_sets st) s) as [t|] eqn:Es; [|apply Hid]. apply nth_error_In in Es. rewrite makeSet_heap in *.
    rewrite <- makeSet_heap. apply makeSet_from; auto; [apply gr_tH_with|]. intros P Q HP. apply safe_tH_with; auto.
  - destruct (nth_error (st_sets st) s) as [t|] eqn:Es; [|apply Hid]. apply nth_error_In in Es.
    apply makeSet_from; auto; [apply gr_tH_without|apply adds_tH_without|]. intros P Q HP. apply safe_tH_without; auto.
  - destruct (nth_error (st_sets st) s) as [t|] eqn:Es; [|apply Hid]. apply nth_error_In in Es.
    destruct (nth_error (st_sets st) u) as [t'|] eqn:Eu; [|apply Hid]. apply nth_error_In in Eu. rewrite makeSet_heap in *.
    rewrite <- makeSet_heap. apply makeSet_from; auto; [apply gr_tH_combine|]. intros P Q HP. apply safe_tH_combine; auto.
  - destruct (nth_error (st_sets st) s) as [t|] eqn:Es; [|apply Hid]. apply nth_error_In in Es.
    destruct (nth_error (st_sets st) u) as [t'|] eqn:Eu; [|apply Hid]. apply nth_error_In in Eu.
    apply makeSet_from; auto; [apply gr_tH_difference|apply adds_tH_difference|]. intros P Q HP. apply safe_tH_difference; auto.
  - destruct (nth_error (st_sets st) s) as [t|] eqn:Es; [|apply Hid]. apply nth_error_In in Es.
    destruct (nth_error (st_sets st) u) as [t'|] eqn:Eu; [|apply Hid]. apply nth_error_In in Eu.
    apply makeSet_from; auto; [apply gr_tH_intersection|apply adds_tH_intersection|]. intros P Q HP. apply safe_tH_intersection; auto.
  - destruct (nth_error (st_sets st) s) as [t|] eqn:Es; [|apply Hid]. apply nth_error_In in Es.
    apply makeSet_from; auto; [apply gr_tH_where|apply adds_tH_where|]. intros P Q HP. apply safe_tH_where; auto.
Qed.

(** The start of such a program: the heap and the sets of [st], no builders. *)
Definition guest (st : state (T := T)) : state := mkState (st_heap st) (st_sets st) [].

Lemma guest_from st : tagInv st -> tagFrom (length (h_objs (st_heap st))) (length (h_arrs (st_heap st))) (guest st).
Proof.
  intros (ob & oa & Ht & Hs & _). exists (fun _ => 0), (fun _ => 0). cbn [guest st_heap st_sets st_builders].
  split; [|split; [|split; [|split; [|split; [|split]]]]]; auto.
  - intros p o Hp. eapply points_imp; [exact (Ht p o Hp)| |]; cbv beta; intros x [Hx _]; auto.
  - intros t Hin p Hp. split; auto. apply (Hs t Hin p Hp).
  - intros i t Hi. destruct i; discriminate.
Qed.

Lemma run_from n m cs : forall st, tagFrom n m st -> forallb quietCmd cs = true ->
  tagFrom n m (run grow cs st) /\ fresh n m (st_heap st) (st_heap (run grow cs st)).
Proof.
  induction cs as [|c cs IH]; intros st Hi Hq; [split; [auto|apply fresh_refl]|]. cbn [forallb] in Hq. apply andb_prop in Hq as [Q1 Q2].
  change (run grow (c :: cs) st) with (run grow cs (step grow st c)).
  destruct (step_from n m st c Hi) as [A1 A2]; [congruence|]. destruct (IH _ A1 Q2) as [B1 B2]. split; auto. eapply fresh_trans; eauto.
Qed.

End Fresh.

Section FreshOk.
Context {E : Env} {EO : EnvOk E} {T : Type} {K : Key T} {vok : T -> Prop} {KO : KeyOk K vok} (grow : nat -> nat -> nat).
Hypothesis Hno : noTriple vok.
Local Opaque maxTreeDepth fanout fb.

Lemma guest_related (st : state (T := T)) ps : related (vok := vok) st ps -> related (vok := vok) (guest st) (mkPS (ps_sets ps) []).
Proof.
  intros ((ob & oa & Ht & Hs & _) & Hr & _). split; [|split; [exact Hr|apply all2_nil]].
  exists ob, oa. split; [exact Ht|]. split; [exact Hs|]. intros i t Hi. destruct i; discriminate.
Qed.

Lemma run_from_all n m cs : forall st ps, tagFrom n m st -> related (vok := vok) st ps -> Forall (cmdOk (vok := vok)) cs ->
  tagFrom n m (run grow cs st) /\ fresh n m (st_heap st) (st_heap (run grow cs st)).
Proof.
  induction cs as [|c cs IH]; intros st ps Hi Hr Hok; [split; [auto|apply fresh_refl]|]. inversion Hok as [|c' cs' Hc Hcs]; subst.
  change (run grow (c :: cs) st) with (run grow cs (step grow st c)).
  destruct (step_from grow n m st c Hi) as [A1 A2].
  { intros Hq. eapply (step_adds grow Hno); eauto. destruct c; cbn in *; congruence. }
  destruct (IH (step grow st c) (pstep ps c) A1) as [B1 B2]; auto.
  - apply related_step; auto. eapply step_still; eauto.
  - split; auto. eapply fresh_trans; eauto.
Qed.

End FreshOk.
