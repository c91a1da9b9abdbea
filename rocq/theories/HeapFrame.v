(** * HeapFrame: what the heap operations may change.

    [safe P Q m post]: started in a heap whose region (objects [P], arrays [Q]) is closed under pointers, [m] changes
    objects and arrays of that region only, keeps it closed, and its result satisfies [post]. The region contains the
    addresses that [m] allocates. Holds for every operation, without any assumption about equality and hashes.

    [adds m]: [m] only adds objects and arrays. Holds for the operations on sets except With and Combine. *)
From Verif Require Import Base Bits Env EnvFacts Node HeapModel.
Local Open Scope nat_scope.

Section Frame.
Context {E : Env} {T : Type} {K : Key T} (grow : nat -> nat -> nat).
Notation obj := (obj (T := T)).
Notation heap := (heap (T := T)).
Notation array := (array (T := T)).
Notation M := (M (T := T)).

Lemma nth_error_snoc {A} (l : list A) x p : p <> length l -> nth_error (l ++ [x]) p = nth_error l p.
Proof.
  intros H. destruct (Nat.lt_ge_cases p (length l)) as [Hl|Hl].
  - apply nth_error_app1; auto.
  - rewrite (proj2 (nth_error_None (l ++ [x]) p)) by (rewrite app_length; simpl; lia).
    symmetry. apply nth_error_None. lia.
Qed.

(** ** Regions *)

Definition points (P Q : nat -> Prop) (o : obj) : Prop :=
  match o with
  | OTwig r _ => Q r
  | OBranch _ d => forall c, In (Some c) d -> P c
  | _ => True
  end.

Definition closed (P Q : nat -> Prop) (h : heap) : Prop :=
  forall p o, P p -> nth_error (h_objs h) p = Some o -> points P Q o.

Definition locIn (P Q : nat -> Prop) (w : loc) : Prop := match w with WObj p => P p | WSlot r _ | WGhost r => Q r end.

Definition within (P Q : nat -> Prop) (h h' : heap) : Prop :=
  length (h_objs h) <= length (h_objs h') /\ length (h_arrs h) <= length (h_arrs h') /\
  (forall p, ~ P p -> nth_error (h_objs h') p = nth_error (h_objs h) p) /\
  (forall r, ~ Q r -> nth_error (h_arrs h') r = nth_error (h_arrs h) r) /\
  h_over h <= h_over h' /\
  exists l, h_log h' = h_log h ++ l /\ Forall (locIn P Q) l.

Definition roomy (P Q : nat -> Prop) (h : heap) : Prop :=
  closed P Q h /\ (forall p, length (h_objs h) <= p -> P p) /\ (forall r, length (h_arrs h) <= r -> Q r).

Definition safe (P Q : nat -> Prop) {A} (m : M A) (post : A -> Prop) : Prop :=
  forall h, closed P Q h ->
    (forall p, length (h_objs h) <= p < length (h_objs (snd (m h))) -> P p) ->
    (forall r, length (h_arrs h) <= r < length (h_arrs (snd (m h))) -> Q r) ->
    closed P Q (snd (m h)) /\ within P Q h (snd (m h)) /\ (forall a, fst (m h) = Ok a -> post a).

Lemma safe_roomy P Q {A} (m : M A) post h : safe P Q m post -> roomy P Q h ->
  closed P Q (snd (m h)) /\ within P Q h (snd (m h)) /\ (forall a, fst (m h) = Ok a -> post a).
Proof. intros Hs (H1 & H2 & H3). apply Hs; auto; intros x Hx; [apply H2|apply H3]; lia. Qed.

Lemma within_refl P Q h : within P Q h h.
Proof. unfold within. repeat (split; [solve [auto]|]). exists []. rewrite app_nil_r. auto. Qed.

Lemma within_trans P Q h1 h2 h3 : within P Q h1 h2 -> within P Q h2 h3 -> within P Q h1 h3.
Proof.
  intros (A1 & A2 & A3 & A4 & A5 & la & A6 & A7) (B1 & B2 & B3 & B4 & B5 & lb & B6 & B7). unfold within. split; [lia|]. split; [lia|].
  split; [intros p Hp; rewrite B3, A3 by auto; auto|]. split; [intros r Hr; rewrite B4, A4 by auto; auto|]. split; [lia|].
  exists (la ++ lb). rewrite B6, A6, app_assoc. split; [auto|]. apply Forall_app. auto.
Qed.

Lemma roomy_within P Q h h' : roomy P Q h -> closed P Q h' -> within P Q h h' -> roomy P Q h'.
Proof.
  intros (R1 & R2 & R3) Hc (A1 & A2 & _). split; auto. split; intros x Hx; [apply R2|apply R3]; lia.
Qed.

(** ** Memory only grows *)

Definition grows {A} (m : M A) : Prop :=
  forall h, length (h_objs h) <= length (h_objs (snd (m h))) /\ length (h_arrs h) <= length (h_arrs (snd (m h))).

Lemma gr_ret {A} (a : A) : grows (ret a).
Proof. intros h. cbn. lia. Qed.
Lemma gr_fail {A} (r : res A) : grows (fail r).
Proof. intros h. cbn. lia. Qed.
Lemma gr_bind {A B} (m : M A) (k : A -> M B) : grows m -> (forall a, grows (k a)) -> grows (bindM m k).
Proof.
  intros Hm Hk h. specialize (Hm h). unfold bindM. destruct (m h) as [[a| |] h']; cbn in *; auto.
  specialize (Hk a h'). lia.
Qed.
Lemma gr_alloc o : grows (alloc o).
Proof. intros h. cbn. rewrite app_length. lia. Qed.
Lemma gr_load p : grows (load p).
Proof. intros h. unfold load. destruct (nth_error _ p); cbn; lia. Qed.
Lemma gr_store p o : grows (store p o).
Proof. intros h. cbn. rewrite set_nth_length. lia. Qed.
Lemma gr_allocArr a : grows (allocArr a).
Proof. intros h. cbn. rewrite app_length. lia. Qed.
Lemma gr_loadArr r : grows (loadArr r).
Proof. intros h. unfold loadArr. destruct (nth_error _ r); cbn; lia. Qed.
Lemma gr_storeArr r i a : grows (storeArr r i a).
Proof. intros h. cbn. rewrite set_nth_length. lia. Qed.
Lemma gr_countOver n : grows (countOver n).
Proof. intros h. cbn. lia. Qed.
Lemma gr_foldMM {A S} (f : S -> A -> M S) l : (forall s a, grows (f s a)) -> forall s, grows (foldMM f s l).
Proof. intros Hf. induction l as [|a l IH]; intros s; cbn; [apply gr_ret|apply gr_bind; auto]. Qed.

Ltac gr1 := first
  [ assumption | apply gr_ret | apply gr_fail | apply gr_alloc | apply gr_load | apply gr_store | apply gr_allocArr
  | apply gr_loadArr | apply gr_storeArr | apply gr_countOver | apply gr_foldMM | apply gr_bind
  | match goal with
    | |- grows (match ?x with _ => _ end) => destruct x
    | |- forall _, _ => intro
    | H : forall _, _ |- grows _ => apply H
    | H : _ /\ _ |- _ => destruct H
    | |- grows _ => progress (cbv beta zeta)
    end ].
Ltac gr0 := repeat gr1.

Lemma gr_elemsOf sl : grows (elemsOf sl).
Proof. unfold elemsOf. gr0. Qed.
Lemma gr_newSlice data : grows (newSlice data).
Proof. unfold newSlice. gr0. Qed.
Lemma gr_setSlot sl i v : grows (setSlot sl i v).
Proof. unfold setSlot. gr0. Qed.
Lemma gr_append sl v : grows (append grow sl v).
Proof. unfold append. gr0. Qed.
Lemma gr_newTwig sl : grows (newTwigH sl).
Proof. apply gr_alloc. Qed.
Lemma gr_newBranch p : grows (newBranchH p).
Proof. apply gr_alloc. Qed.
Lemma gr_emptyBranch : grows emptyBranchH.
Proof. apply gr_alloc. Qed.

Ltac gr2 := first [ apply gr_elemsOf | apply gr_newSlice | apply gr_setSlot | apply gr_append | apply gr_newTwig
  | apply gr_newBranch | apply gr_emptyBranch | gr1 ].
Ltac gra := repeat gr2.

Lemma gr_newBranchFrom_with addFast depth sl :
  (forall p v d h, grows (addFast p v d h)) -> grows (newBranchFromH_with addFast depth sl).
Proof. intros H. unfold newBranchFromH_with. gra. Qed.
Lemma gr_addH fuel : forall eq f p v depth h, grows (addH grow fuel eq f p v depth h).
Proof.
  induction fuel as [|k IH]; intros eq f p v depth h; cbn [addH]; [apply gr_fail|].
  repeat first [apply gr_newBranchFrom_with | gr2].
Qed.
Lemma gr_newBranchFrom fuel depth sl : grows (newBranchFromH grow fuel depth sl).
Proof. apply gr_newBranchFrom_with. intros. apply gr_addH. Qed.
Lemma gr_appendToH fuel : (forall cap p dest, grows (appendToH fuel cap p dest)) /\
  (forall cap data dest, grows (appendAllH fuel cap data dest)).
Proof. induction fuel as [|k [IH1 IH2]]; split; intros cap x dest; cbn [appendToH appendAllH]; gra. Qed.
Lemma gr_appendTo fuel cap p dest : grows (appendToH fuel cap p dest).
Proof. apply gr_appendToH. Qed.
Lemma gr_appendAll fuel cap data dest : grows (appendAllH fuel cap data dest).
Proof. apply gr_appendToH. Qed.

Ltac gr3 := first [ apply gr_addH | apply gr_newBranchFrom | apply gr_appendTo | apply gr_appendAll | gr2 ].
Ltac grb := repeat gr3.

Lemma gr_canonicalTwig fuel depth p sl : grows (canonicalTwigH grow fuel depth p sl).
Proof. unfold canonicalTwigH. grb. Qed.
Lemma gr_newCanonical fuel depth sl : grows (newCanonicalH grow fuel depth sl).
Proof. unfold newCanonicalH. apply gr_bind; [apply gr_newTwig|intros; apply gr_canonicalTwig]. Qed.
Lemma gr_canonicalBranch fuel p : grows (canonicalBranchH grow fuel p).
Proof. unfold canonicalBranchH. repeat first [apply gr_newCanonical | gr3]. Qed.
Lemma gr_getH fuel : forall p v h, grows (getH fuel p v h).
Proof. induction fuel as [|k IH]; intros p v h; cbn [getH]; grb. Qed.
Lemma gr_cloneSlice sl : grows (cloneSlice sl).
Proof. unfold cloneSlice. grb. Qed.

Ltac gr4 := first [ apply gr_canonicalTwig | apply gr_newCanonical | apply gr_canonicalBranch | apply gr_cloneSlice | gr3 ].
Ltac grc := repeat gr4.

Lemma gr_withH fuel : forall eq f p v depth h, grows (withH grow fuel eq f p v depth h).
Proof. induction fuel as [|k IH]; intros eq f p v depth h; cbn [withH]; grc. Qed.
Lemma gr_withoutH fuel : forall p v depth h, grows (withoutH grow fuel p v depth h).
Proof. induction fuel as [|k IH]; intros p v depth h; cbn [withoutH]; grc. Qed.
Lemma gr_newLeaf data : grows (newLeafH data).
Proof. unfold newLeafH. grc. Qed.
Lemma gr_removeH fuel : forall p v depth h, grows (removeH grow fuel p v depth h).
Proof.
  induction fuel as [|k IH]; intros p v depth h; cbn [removeH]; [apply gr_fail|].
  repeat first [apply gr_newLeaf | gr4].
Qed.
Lemma gr_parallel_loop (f : nat -> M (option nat * Z)) order : (forall i, grows (f i)) ->
  forall m data, grows (parallelH_loop f order m data).
Proof. intros Hf. induction order as [|i order IH]; intros m data; cbn [parallelH_loop]; grc. Qed.
Lemma gr_parallel g depth mask (f : nat -> M (option nat * Z)) : (forall i, grows (f i)) -> grows (parallelH g depth mask f).
Proof. intros Hf. apply gr_parallel_loop; auto. Qed.
Lemma gr_combineLeaf21 fuel args depth l0 l1 nd : grows (combineLeaf21H grow fuel args depth l0 l1 nd).
Proof. unfold combineLeaf21H. grc. Qed.
Lemma gr_combineLeaf1 args a b : grows (combineLeaf1H args a b).
Proof. unfold combineLeaf1H. grc. Qed.
Lemma gr_combineLeaf2 fuel args depth l0 l1 n0 n1 : grows (combineLeaf2H grow fuel args depth l0 l1 n0 n1).
Proof.
  unfold combineLeaf2H, combineLeaf2H_step.
  destruct (c_eq args l0 n0), (c_eq args l1 n1), (c_eq args l0 n1), (c_eq args l1 n0); grc.
Qed.
Lemma gr_dropped fuel args depth l rest : grows (combineTwigH_dropped grow fuel args depth l rest).
Proof. unfold combineTwigH_dropped. grc. Qed.
Lemma gr_scan fuel args depth ndata : forall sl cloned matches, grows (combineTwigH_scan grow fuel args depth sl cloned ndata matches).
Proof.
  induction ndata as [|e rest IH]; intros sl cloned matches; cbn [combineTwigH_scan]; [apply gr_ret|].
  repeat first [apply gr_dropped | gr4].
Qed.
Lemma gr_combineTwig fuel args depth sl sl2 : grows (combineTwigH grow fuel args depth sl sl2).
Proof. unfold combineTwigH. repeat first [apply gr_scan | gr4]. Qed.
Lemma gr_with2 fuel args p a b depth : grows (with2H grow fuel args p a b depth).
Proof. unfold with2H. repeat first [apply gr_withH | gr4]. Qed.
Lemma gr_combineH fuel : forall args p p2 depth, grows (combineH grow fuel args p p2 depth).
Proof.
  induction fuel as [|k IH]; intros args p p2 depth; cbn [combineH]; [apply gr_fail|].
  repeat first [ apply gr_combineLeaf1 | apply gr_combineLeaf21 | apply gr_combineLeaf2 | apply gr_combineTwig | apply gr_withH
               | apply gr_with2 | apply gr_parallel | gr4 ].
Qed.
Lemma gr_has_at fuel p e depth : grows (has_atH fuel p e depth).
Proof. unfold has_atH. repeat first [apply gr_getH | gr4]. Qed.
Lemma gr_filterGet fuel keep l p depth : forall sl matches, grows (filterGetH grow fuel keep l p depth sl matches).
Proof. induction l as [|e l IH]; intros sl matches; cbn [filterGetH]; repeat first [apply gr_has_at | gr4]. Qed.
Lemma gr_differenceH fuel : forall g p p2 depth, grows (differenceH grow fuel g p p2 depth).
Proof.
  induction fuel as [|k IH]; intros g p p2 depth; cbn [differenceH]; [apply gr_fail|].
  repeat first [ apply gr_has_at | apply gr_filterGet | apply gr_withoutH | apply gr_parallel | gr4 ].
Qed.
Lemma gr_intersectLeaf1 fuel p a p2 depth : grows (intersectLeaf1H fuel p a p2 depth).
Proof. unfold intersectLeaf1H. repeat first [apply gr_has_at | gr4]. Qed.
Lemma gr_intersectLeaf2 fuel p a b p2 depth : grows (intersectLeaf2H fuel p a b p2 depth).
Proof. unfold intersectLeaf2H. repeat first [apply gr_has_at | gr4]. Qed.
Lemma gr_intersectionH fuel : forall g p p2 depth, grows (intersectionH grow fuel g p p2 depth).
Proof.
  induction fuel as [|k IH]; intros g p p2 depth; cbn [intersectionH]; [apply gr_fail|].
  repeat first [ apply gr_has_at | apply gr_filterGet | apply gr_intersectLeaf1 | apply gr_intersectLeaf2 | apply gr_parallel | gr4 ].
Qed.
Lemma gr_filterPred pred l : forall sl matches, grows (filterPredH grow pred l sl matches).
Proof. induction l as [|e l IH]; intros sl matches; cbn [filterPredH]; grc. Qed.
Lemma gr_whereH fuel : forall g pred p depth, grows (whereH grow fuel g pred p depth).
Proof.
  induction fuel as [|k IH]; intros g pred p depth; cbn [whereH]; [apply gr_fail|].
  repeat first [ apply gr_filterPred | apply gr_parallel | gr4 ].
Qed.

Ltac gr := solve [repeat first
  [ apply gr_withH | apply gr_withoutH | apply gr_newLeaf | apply gr_removeH | apply gr_parallel
  | apply gr_combineLeaf1 | apply gr_combineLeaf21 | apply gr_combineLeaf2 | apply gr_combineTwig | apply gr_dropped
  | apply gr_scan | apply gr_with2 | apply gr_combineH | apply gr_has_at | apply gr_filterGet | apply gr_differenceH
  | apply gr_intersectLeaf1 | apply gr_intersectLeaf2 | apply gr_intersectionH | apply gr_filterPred | apply gr_whereH
  | apply gr_parallel_loop | apply gr_newBranchFrom_with | apply gr_getH | gr4 ]].

Section Rules.
Context (P Q : nat -> Prop).

Lemma safe_ret {A} (a : A) (post : A -> Prop) : post a -> safe P Q (ret a) post.
Proof. intros H h Hc _ _. cbn. split; auto. split; [apply within_refl|]. intros b [= <-]. auto. Qed.

Lemma safe_fail {A} (r : res A) (post : A -> Prop) : (forall a, r <> Ok a) -> safe P Q (fail r) post.
Proof. intros H h Hc _ _. cbn. split; auto. split; [apply within_refl|]. intros b Hb. contradiction (H b). Qed.

Lemma safe_bind {A B} (m : M A) (k : A -> M B) (post : A -> Prop) (post' : B -> Prop) : (forall a, grows (k a)) ->
  safe P Q m post -> (forall a, post a -> safe P Q (k a) post') -> safe P Q (bindM m k) post'.
Proof.
  intros Hg Hm Hk h Hc HP HQ. unfold bindM in *. specialize (Hm h Hc).
  destruct (m h) as [[a| |] h'] eqn:E1; cbn in *.
  - destruct (Hg a h') as [G1 G2]. destruct Hm as (Hc1 & Hw & Hp); [intros x Hx; apply HP; lia|intros x Hx; apply HQ; lia|].
    destruct (Hk a (Hp a eq_refl) h') as (Hc' & Hw' & Hp'); auto.
    { intros x Hx. apply HP. destruct Hw. lia. }
    { intros x Hx. apply HQ. destruct Hw as (_ & ? & _). lia. }
    split; auto. split; auto. eapply within_trans; eauto.
  - destruct Hm as (Hc1 & Hw & Hp); auto. split; auto. split; auto. intros b [=].
  - destruct Hm as (Hc1 & Hw & Hp); auto. split; auto. split; auto. intros b [=].
Qed.

Lemma safe_weaken {A} (m : M A) (post post' : A -> Prop) :
  safe P Q m post -> (forall a, post a -> post' a) -> safe P Q m post'.
Proof. intros H1 H2 h Hc HP HQ. destruct (H1 h Hc HP HQ) as (Hc' & Hw & Hp). split; auto. Qed.

Lemma safe_alloc o : points P Q o -> safe P Q (alloc o) P.
Proof.
  intros Ho h Hc HP HQ. unfold alloc in *. cbn in *. rewrite app_length in HP. cbn in HP. split; [|split].
  - intros p o' Hp. cbn. destruct (Nat.eq_dec p (length (h_objs h))) as [->|Hn].
    + rewrite nth_error_app2, Nat.sub_diag by lia. cbn. intros [= <-]. auto.
    + rewrite nth_error_snoc by auto. eauto.
  - unfold within; cbn. rewrite app_length; cbn. split; [lia|]. split; [lia|]. split.
    { intros p Hp. apply nth_error_snoc. intros ->. apply Hp. apply HP. lia. }
    split; [auto|]. split; [lia|]. exists []. rewrite app_nil_r. auto.
  - intros a [= <-]. apply HP. lia.
Qed.

Lemma safe_load p : P p -> safe P Q (load p) (points P Q).
Proof.
  intros Hp h Hc _ _. unfold load. destruct (nth_error (h_objs h) p) as [o|] eqn:E1; cbn;
    (split; [auto|split; [apply within_refl|]]); [|intros a [=]].
  intros a [= <-]. eauto.
Qed.

Lemma safe_load_any p : safe P Q (load p) (fun _ => True).
Proof.
  intros h Hc _ _. unfold load. destruct (nth_error (h_objs h) p) as [o|] eqn:E1; cbn;
    (split; [auto|split; [apply within_refl|]]); auto.
Qed.

Lemma safe_store p o : P p -> points P Q o -> safe P Q (store p o) (fun _ => True).
Proof.
  intros Hp Ho h Hc HP HQ. unfold store. cbn. split; [|split; auto].
  - intros p' o' Hp'. cbn. destruct (Nat.eq_dec p p') as [<-|Hn].
    + destruct (Nat.lt_ge_cases p (length (h_objs h))) as [Hl|Hl].
      * rewrite nth_error_set_nth_eq by auto. intros [= <-]. auto.
      * rewrite (proj2 (nth_error_None _ _)) by (rewrite set_nth_length; lia). discriminate.
    + rewrite nth_error_set_nth_ne by auto. eauto.
  - unfold within; cbn. rewrite set_nth_length. split; [lia|]. split; [lia|]. split.
    { intros p' Hp'. apply nth_error_set_nth_ne. intros ->. auto. }
    split; [auto|]. split; [lia|]. exists [WObj p]. auto.
Qed.

Lemma safe_allocArr a : safe P Q (allocArr a) Q.
Proof.
  intros h Hc HP HQ. unfold allocArr in *. cbn in *. rewrite app_length in HQ. cbn in HQ. split; [exact Hc|split].
  - unfold within; cbn. rewrite app_length; cbn. split; [lia|]. split; [lia|]. split; [auto|]. split.
    { intros p Hp. apply nth_error_snoc. intros ->. apply Hp. apply HQ. lia. }
    split; [lia|]. exists []. rewrite app_nil_r. auto.
  - intros r [= <-]. apply HQ. lia.
Qed.

Lemma safe_loadArr r : safe P Q (loadArr r) (fun _ => True).
Proof.
  intros h Hc _ _. unfold loadArr. destruct (nth_error (h_arrs h) r) as [o|] eqn:E1; cbn;
    (split; [auto|split; [apply within_refl|]]); auto.
Qed.

Lemma safe_storeArr r i a : Q r -> safe P Q (storeArr r i a) (fun _ => True).
Proof.
  intros Hr h Hc HP HQ. unfold storeArr. cbn. split; [exact Hc|split; auto].
  unfold within; cbn. rewrite set_nth_length. split; [lia|]. split; [lia|]. split; [auto|]. split.
  { intros p' Hp'. apply nth_error_set_nth_ne. intros ->. auto. }
  split; [lia|]. exists [slotOf r i]. split; [auto|]. destruct i; cbn; auto.
Qed.

Lemma safe_countOver n : safe P Q (countOver n) (fun _ => True).
Proof.
  intros h Hc HP HQ. unfold countOver. cbn. split; [exact Hc|split; auto].
  unfold within; cbn. repeat (split; [solve [auto]|]). split; [lia|]. exists []. rewrite app_nil_r. auto.
Qed.

Lemma safe_foldMM {A S} (f : S -> A -> M S) (I : S -> Prop) l s :
  (forall s a, grows (f s a)) -> I s -> (forall s a, I s -> safe P Q (f s a) I) -> safe P Q (foldMM f s l) I.
Proof.
  intros Hg Hs Hf. revert s Hs; induction l as [|a l IH]; intros s Hs; cbn.
  - apply safe_ret; auto.
  - eapply safe_bind; [gr|apply Hf; auto|]. cbn. auto.
Qed.

Lemma safe_elemsOf sl : safe P Q (elemsOf sl) (fun _ => True).
Proof. unfold elemsOf. eapply safe_bind; [gr|apply safe_loadArr|]. intros a _. apply safe_ret; auto. Qed.

Lemma safe_newSlice data : safe P Q (newSlice data) (fun sl => Q (fst sl)).
Proof. unfold newSlice. eapply safe_bind; [gr|apply safe_allocArr|]. intros r Hr. apply safe_ret; auto. Qed.

Lemma safe_setSlot sl i v : Q (fst sl) -> safe P Q (setSlot sl i v) (fun _ => True).
Proof. intros H. unfold setSlot. eapply safe_bind; [gr|apply safe_loadArr|]. intros a _. apply safe_storeArr; auto. Qed.

Lemma safe_append sl v : Q (fst sl) -> safe P Q (append grow sl v) (fun sl' => Q (fst sl')).
Proof.
  intros H. unfold append. destruct sl as [r len]. eapply safe_bind; [gr|apply safe_loadArr|]. intros a _.
  destruct (len <? a_cap a).
  - eapply safe_bind; [gr|apply safe_countOver|]. intros _ _.
    eapply safe_bind; [gr|apply safe_storeArr; auto|]. intros _ _. apply safe_ret; auto.
  - eapply safe_bind; [gr|apply safe_allocArr|]. intros r' Hr. apply safe_ret; auto.
Qed.

Lemma safe_newTwig sl : Q (fst sl) -> safe P Q (newTwigH sl) P.
Proof. intros H. apply safe_alloc. exact H. Qed.

Lemma in_set_nth_opt {A} (l : list (option A)) i x c : In (Some c) (set_nth l i x) -> x = Some c \/ In (Some c) l.
Proof.
  revert i; induction l as [|a l IH]; intros [|i]; cbn; auto.
  - intros [H|H]; auto.
  - intros [H|H]; auto. destruct (IH _ H); auto.
Qed.

Lemma points_set m m' d i x : points P Q (OBranch m d) -> (forall c, x = Some c -> P c) ->
  points P Q (OBranch m' (set_nth d i x)).
Proof. cbn. intros H1 H2 c Hc. apply in_set_nth_opt in Hc as [->|Hc]; auto. Qed.

Lemma points_child m d i c : points P Q (OBranch m d) -> childP d i = Some c -> P c.
Proof.
  cbn. intros H1 H2. apply H1. rewrite <- H2. unfold childP.
  destruct (Nat.lt_ge_cases i (length d)) as [Hl|Hl]; [apply nth_In; auto|].
  unfold childP in H2. rewrite nth_overflow in H2 by auto. discriminate.
Qed.

Lemma points_empty m : points P Q (OBranch m emptyDataP).
Proof. cbn. intros c Hc. apply repeat_spec in Hc. discriminate. Qed.

Lemma safe_emptyBranch : safe P Q emptyBranchH P.
Proof. apply safe_alloc. apply points_empty. Qed.

Lemma safe_newBranch m d m' : points P Q (OBranch m d) -> safe P Q (newBranchH (m', d)) P.
Proof. intros H. apply safe_alloc. exact H. Qed.

Definition optP (o : option nat) : Prop := forall c, o = Some c -> P c.

Lemma optP_Some c : P c -> optP (Some c).
Proof. intros H x [= <-]. auto. Qed.
Lemma optP_None : optP None.
Proof. intros x [=]. Qed.

Lemma setChildP_snd p i x : snd (setChildP p i x) = set_nth (snd p) i x.
Proof. destruct x; reflexivity. Qed.

Lemma safe_setChild m d i x : points P Q (OBranch m d) -> optP x -> forall m', safe P Q (newBranchH (setChildP (m', d) i x)) P.
Proof.
  intros H Hx m'. apply safe_alloc. rewrite setChildP_snd. eapply points_set; eauto.
Qed.

Local Hint Resolve optP_Some optP_None : core.

Lemma safe_newBranchFrom_with addFast depth sl : (forall p v d h, grows (addFast p v d h)) ->
  (forall p v d h, P p -> safe P Q (addFast p v d h) (fun r => P (fst r))) ->
  (maxTreeDepth <= depth -> Q (fst sl)) ->
  safe P Q (newBranchFromH_with addFast depth sl) P.
Proof.
  intros Hg Ha Hsl. unfold newBranchFromH_with. destruct (Nat.leb_spec maxTreeDepth depth) as [Hd|Hd].
  - apply safe_newTwig; auto.
  - eapply safe_bind; [gr|apply safe_elemsOf|]. intros l _. eapply safe_bind; [gr|apply safe_emptyBranch|]. intros b Hb.
    eapply safe_bind; [gr|apply (safe_foldMM _ (fun r => P (fst r))); auto; try gr|]. intros _ _. apply safe_ret; auto.
Qed.

Lemma safe_addH fuel : forall eq f p v depth h, P p -> safe P Q (addH grow fuel eq f p v depth h) (fun r => P (fst r)).
Proof.
  induction fuel as [|k IH]; intros eq f p v depth h Hp; cbn [addH].
  - apply safe_fail. discriminate.
  - eapply safe_bind; [gr|apply safe_load; auto|]. intros [a|a b|r len|m d] Ho.
    + destruct (eq a v).
      * eapply safe_bind; [gr|apply safe_store; cbn; auto|]. intros _ _. apply safe_ret; auto.
      * eapply safe_bind; [gr|apply safe_alloc; cbn; auto|]. intros q Hq. apply safe_ret; auto.
    + destruct (eq a v); [|destruct (eq b v)].
      * eapply safe_bind; [gr|apply safe_store; cbn; auto|]. intros _ _. apply safe_ret; auto.
      * eapply safe_bind; [gr|apply safe_store; cbn; auto|]. intros _ _. apply safe_ret; auto.
      * eapply safe_bind; [gr|apply safe_newSlice|]. intros sl Hsl.
        eapply safe_bind; [gr|apply safe_newBranchFrom_with; auto; try gr|]. intros q Hq. apply safe_ret; auto.
    + cbn in Ho. eapply safe_bind; [gr|apply safe_elemsOf|]. intros l _. destruct (indexOf _ l) as [i|].
      * eapply safe_bind; [gr|apply safe_setSlot; auto|]. intros _ _. apply safe_ret; auto.
      * eapply safe_bind; [gr|apply safe_loadArr|]. intros a _. destruct (_ || _)%bool.
        -- eapply safe_bind; [gr|apply safe_append; auto|]. intros sl Hsl.
           eapply safe_bind; [gr|apply safe_store; cbn; auto|]. intros _ _. apply safe_ret; auto.
        -- eapply safe_bind; [gr|apply safe_emptyBranch|]. intros b Hb.
           eapply safe_bind; [gr| |].
           { apply (safe_foldMM _ (fun _ => True)); auto; try gr. intros s e _.
             eapply safe_bind; [gr|apply IH; auto|]. intros [q m'] _. apply safe_ret; auto. }
           intros m _. eapply safe_bind; [gr|apply IH; auto|]. intros [q m'] _. apply safe_ret; auto.
    + destruct (childP d (h_hash h)) as [c|] eqn:Ec.
      * eapply safe_bind; [gr|apply IH; eapply points_child; eauto|]. intros [q m'] Hq. cbn in Hq.
        eapply safe_bind; [gr|apply safe_store; auto|].
        { cbn [fst snd setNonNilChildP]. eapply points_set; [exact Ho|apply optP_Some; exact Hq]. }
        intros _ _. apply safe_ret; auto.
      * eapply safe_bind; [gr|apply safe_alloc; cbn; auto|]. intros q Hq.
        eapply safe_bind; [gr|apply safe_store; auto|].
        { cbn [fst snd setNonNilChildP]. eapply points_set; [exact Ho|apply optP_Some; exact Hq]. }
        intros _ _. apply safe_ret; auto.
Qed.

Lemma safe_newBranchFrom fuel depth sl :
  (maxTreeDepth <= depth -> Q (fst sl)) -> safe P Q (newBranchFromH grow fuel depth sl) P.
Proof.
  intros Hsl. apply safe_newBranchFrom_with; auto; try gr. intros p v d h Hp. apply safe_addH; auto.
Qed.

Lemma safe_appendToH fuel : (forall cap p dest, safe P Q (appendToH fuel cap p dest) (fun _ => True)) /\
  (forall cap data dest, safe P Q (appendAllH fuel cap data dest) (fun _ => True)).
Proof.
  induction fuel as [|k [IH1 IH2]]; split; intros cap x dest; cbn [appendToH appendAllH];
    try (apply safe_fail; discriminate).
  - eapply safe_bind; [gr|apply safe_load_any|]. intros [a|a b|r len|m d] _; try (apply safe_ret; auto); auto.
    eapply safe_bind; [gr|apply safe_elemsOf|]. intros l _. apply safe_ret; auto.
  - destruct x as [|[c|] data']; [apply safe_ret; auto| |apply IH2].
    eapply safe_bind; [gr|apply IH1|]. intros [d|] _; [apply IH2|apply safe_ret; auto].
Qed.

Lemma safe_appendTo fuel cap p dest : safe P Q (appendToH fuel cap p dest) (fun _ => True).
Proof. apply safe_appendToH. Qed.

Lemma safe_canonicalTwig fuel depth p sl : P p -> Q (fst sl) -> safe P Q (canonicalTwigH grow fuel depth p sl) optP.
Proof.
  intros Hp Hsl. unfold canonicalTwigH. eapply safe_bind; [gr|apply safe_elemsOf|].
  intros [|a [|b [|c l]]] _.
  - apply safe_ret; auto.
  - eapply safe_bind; [gr|apply safe_alloc; cbn; auto|]. intros q Hq. apply safe_ret; auto.
  - eapply safe_bind; [gr|apply safe_alloc; cbn; auto|]. intros q Hq. apply safe_ret; auto.
  - destruct (_ || _)%bool; [apply safe_ret; auto|].
    eapply safe_bind; [gr|apply safe_newBranchFrom; auto|]. intros q Hq. apply safe_ret; auto.
Qed.

Lemma safe_newCanonical fuel depth sl : Q (fst sl) -> safe P Q (newCanonicalH grow fuel depth sl) optP.
Proof.
  intros H. unfold newCanonicalH. eapply safe_bind; [gr|apply safe_newTwig; auto|]. intros p Hp.
  apply safe_canonicalTwig; auto.
Qed.

Lemma safe_canonicalBranch fuel p : P p -> safe P Q (canonicalBranchH grow fuel p) optP.
Proof.
  intros Hp. unfold canonicalBranchH. eapply safe_bind; [gr|apply safe_appendTo|]. intros [d|] _.
  - eapply safe_bind; [gr|apply safe_newSlice|]. intros sl Hsl. apply safe_newCanonical; auto.
  - apply safe_ret; auto.
Qed.

Lemma safe_get fuel : forall p v h, safe P Q (getH fuel p v h) (fun _ => True).
Proof.
  induction fuel as [|k IH]; intros p v h; cbn [getH]; [apply safe_fail; discriminate|].
  eapply safe_bind; [gr|apply safe_load_any|]. intros [a|a b|r len|m d] _; try (apply safe_ret; auto).
  - eapply safe_bind; [gr|apply safe_elemsOf|]. intros l _. apply safe_ret; auto.
  - destruct (childP d (h_hash h)); [apply IH|apply safe_ret; auto].
Qed.

Lemma safe_cloneSlice sl : safe P Q (cloneSlice sl) (fun sl => Q (fst sl)).
Proof. unfold cloneSlice. eapply safe_bind; [gr|apply safe_elemsOf|]. intros l _. apply safe_newSlice. Qed.

Lemma safe_withH fuel : forall eq f p v depth h, P p -> safe P Q (withH grow fuel eq f p v depth h) (fun r => P (fst r)).
Proof.
  induction fuel as [|k IH]; intros eq f p v depth h Hp; cbn [withH]; [apply safe_fail; discriminate|].
  eapply safe_bind; [gr|apply safe_load; auto|]. intros [a|a b|r len|m d] Ho.
  - destruct (eq a v); (eapply safe_bind; [gr|apply safe_alloc; cbn; auto|]; intros q Hq; apply safe_ret; auto).
  - destruct (eq a v); [|destruct (eq b v)].
    + eapply safe_bind; [gr|apply safe_alloc; cbn; auto|]; intros q Hq; apply safe_ret; auto.
    + eapply safe_bind; [gr|apply safe_alloc; cbn; auto|]; intros q Hq; apply safe_ret; auto.
    + eapply safe_bind; [gr|apply safe_newSlice|]. intros sl Hsl.
      eapply safe_bind; [gr|apply safe_newBranchFrom; auto|]. intros q Hq. apply safe_ret; auto.
  - cbn in Ho. eapply safe_bind; [gr|apply safe_elemsOf|]. intros l _. destruct (indexOf _ l) as [i|].
    + eapply safe_bind; [gr|apply safe_cloneSlice|]. intros sl Hsl. eapply safe_bind; [gr|apply safe_newTwig; auto|].
      intros q Hq. eapply safe_bind; [gr|apply safe_setSlot; auto|]. intros _ _. apply safe_ret; auto.
    + eapply safe_bind; [gr|apply safe_append; auto|]. intros sl Hsl.
      eapply safe_bind; [gr|apply safe_newCanonical; auto|]. intros [q|] Hq; [|apply safe_fail; discriminate].
      apply safe_ret. apply Hq. auto.
  - destruct (childP d (h_hash h)) as [c|] eqn:Ec.
    + eapply safe_bind; [gr|apply IH; eapply points_child; eauto|]. intros [q m'] Hq. cbn in Hq.
      destruct (q =? c); [apply safe_ret; auto|].
      eapply safe_bind; [gr|eapply safe_setChild; eauto|]. intros q2 Hq2. apply safe_ret; auto.
    + eapply safe_bind; [gr|apply safe_alloc; cbn; auto|]. intros q Hq.
      eapply safe_bind; [gr|eapply safe_setChild; eauto|]. intros q2 Hq2. apply safe_ret; auto.
Qed.

Lemma safe_withoutH fuel : forall p v depth h, P p -> safe P Q (withoutH grow fuel p v depth h) (fun r => optP (fst r)).
Proof.
  induction fuel as [|k IH]; intros p v depth h Hp; cbn [withoutH]; [apply safe_fail; discriminate|].
  eapply safe_bind; [gr|apply safe_load; auto|]. intros [a|a b|r len|m d] Ho.
  - destruct (veq a v); apply safe_ret; cbn; auto.
  - destruct (veq a v); [|destruct (veq b v)]; [| |apply safe_ret; cbn; auto];
      (eapply safe_bind; [gr|apply safe_alloc; cbn; auto|]; intros q Hq; apply safe_ret; cbn; auto).
  - cbn in Ho. eapply safe_bind; [gr|apply safe_elemsOf|]. intros l _. destruct (indexOf _ l) as [i|]; [|apply safe_ret; cbn; auto].
    eapply safe_bind; [gr|apply safe_cloneSlice|]. intros sl Hsl. eapply safe_bind; [gr|apply safe_newTwig; auto|].
    intros q Hq. eapply (safe_bind _ _ (fun _ => True)); [gr| |].
    { destruct (i =? snd sl); [apply safe_ret; auto|apply safe_setSlot; auto]. }
    intros _ _. eapply safe_bind; [gr|apply safe_canonicalTwig; auto|]. intros o Ho'. apply safe_ret; auto.
  - destruct (childP d (h_hash h)) as [c|] eqn:Ec; [|apply safe_ret; cbn; auto].
    eapply safe_bind; [gr|apply IH; eapply points_child; eauto|]. intros [q m'] Hq. cbn in Hq.
    destruct (ptr_eqb q (Some c)); [apply safe_ret; cbn; auto|].
    eapply safe_bind; [gr|eapply safe_setChild; eauto|]. intros q2 Hq2.
    eapply safe_bind; [gr|apply safe_canonicalBranch; auto|]. intros o Ho'. apply safe_ret; auto.
Qed.

Lemma safe_newLeaf data : safe P Q (newLeafH data) P.
Proof.
  unfold newLeafH. destruct data as [|a [|b [|c l]]]; try (apply safe_fail; discriminate); apply safe_alloc; cbn; auto.
Qed.

Lemma safe_removeH fuel : forall p v depth h, P p -> safe P Q (removeH grow fuel p v depth h) (fun r => optP (fst r)).
Proof.
  induction fuel as [|k IH]; intros p v depth h Hp; cbn [removeH]; [apply safe_fail; discriminate|].
  eapply safe_bind; [gr|apply safe_load; auto|]. intros [a|a b|r len|m d] Ho.
  - destruct (veq a v); apply safe_ret; cbn; auto.
  - destruct (veq a v); [|destruct (veq b v)]; [| |apply safe_ret; cbn; auto];
      (eapply safe_bind; [gr|apply safe_alloc; cbn; auto|]; intros q Hq; apply safe_ret; cbn; auto).
  - cbn in Ho. eapply safe_bind; [gr|apply safe_elemsOf|]. intros l _. destruct (indexOf _ l) as [i|]; [|apply safe_ret; cbn; auto].
    cbn zeta. destruct (len - 1 =? 0); [apply safe_ret; cbn; auto|].
    eapply (safe_bind _ _ (fun _ => True)); [gr| |].
    { destruct (i <? len - 1); [apply safe_setSlot; auto|apply safe_ret; auto]. }
    intros _ _. eapply safe_bind; [gr|apply safe_loadArr|]. intros a _.
    eapply safe_bind; [gr|apply safe_storeArr; auto|]. intros _ _.
    eapply safe_bind; [gr|apply safe_store; cbn; auto|]. intros _ _.
    eapply safe_bind; [gr|apply safe_canonicalTwig; auto|]. intros o Ho'. apply safe_ret; auto.
  - destruct (childP d (h_hash h)) as [c|] eqn:Ec; [|apply safe_ret; cbn; auto].
    eapply safe_bind; [gr|apply IH; eapply points_child; eauto|]. intros [n m'] Hn. cbn in Hn. cbn zeta.
    eapply safe_bind; [gr|eapply safe_newBranch; eapply (points_set m 0%N); eauto|]. intros q Hq.
    eapply (safe_bind _ _ (fun _ => True)); [gr| |].
    { destruct n as [x|]; [|apply safe_ret; auto]. eapply safe_bind; [gr|apply safe_load_any|]. intros o' _. apply safe_ret; auto. }
    assert (Hrest : safe P Q (bindM (appendToH walkFuel maxLeafLen q [])
       (fun x : option (list T) => match x with
          | Some es => bindM (newLeafH es) (fun l => ret (Some l, m'))
          | None => ret (Some q, m') end)) (fun r => optP (fst r))).
    { eapply safe_bind; [gr|apply safe_appendTo|]. intros [es|] _; [|apply safe_ret; cbn; auto].
      eapply safe_bind; [gr|apply safe_newLeaf|]. intros l Hl. apply safe_ret; cbn; auto. }
    intros [[| | |]|] _; auto. apply safe_ret; cbn; auto.
Qed.

Lemma safe_parallel_loop (f : nat -> M (option nat * Z)) order : (forall i, grows (f i)) ->
  (forall i, safe P Q (f i) (fun r => optP (fst r))) ->
  forall matches data, points P Q (OBranch 0%N data) ->
  safe P Q (parallelH_loop f order matches data) (fun r => points P Q (OBranch 0%N (fst r))).
Proof.
  intros Hg Hf. induction order as [|i order IH]; intros matches data Hd; cbn [parallelH_loop].
  - apply safe_ret; auto.
  - eapply safe_bind; [gr|apply Hf|]. intros [r m] Hr. apply IH. eapply points_set; eauto.
Qed.

Lemma safe_parallel g depth mask (f : nat -> M (option nat * Z)) : (forall i, grows (f i)) ->
  (forall i, safe P Q (f i) (fun r => optP (fst r))) ->
  safe P Q (parallelH g depth mask f) (fun r => points P Q (OBranch 0%N (fst r))).
Proof. intros Hg Hf. apply safe_parallel_loop; auto. apply points_empty. Qed.

Lemma safe_combineLeaf21 fuel args depth l0 l1 nd :
  safe P Q (combineLeaf21H grow fuel args depth l0 l1 nd) (fun r => P (fst r)).
Proof.
  unfold combineLeaf21H. destruct (c_eq args l0 nd); [|destruct (c_eq args l1 nd)].
  - eapply safe_bind; [gr|apply safe_alloc; cbn; auto|]; intros q Hq; apply safe_ret; auto.
  - eapply safe_bind; [gr|apply safe_alloc; cbn; auto|]; intros q Hq; apply safe_ret; auto.
  - eapply safe_bind; [gr|apply safe_newSlice|]. intros sl Hsl.
    eapply safe_bind; [gr|apply safe_newBranchFrom; auto|]. intros q Hq. apply safe_ret; auto.
Qed.

Lemma safe_combineLeaf1 args a b : safe P Q (combineLeaf1H args a b) (fun r => P (fst r)).
Proof.
  unfold combineLeaf1H. destruct (c_eq args a b);
    (eapply safe_bind; [gr|apply safe_alloc; cbn; auto|]; intros q Hq; apply safe_ret; auto).
Qed.

Lemma safe_sliceBranch fuel depth data (m : Z) :
  safe P Q (bindM (newSlice data) (fun sl => bindM (newBranchFromH grow fuel depth sl) (fun q => ret (q, m)))) (fun r => P (fst r)).
Proof.
  eapply safe_bind; [gr|apply safe_newSlice|]. intros sl Hsl.
  eapply safe_bind; [gr|apply safe_newBranchFrom; auto|]. intros q Hq. apply safe_ret; auto.
Qed.

Lemma safe_combineLeaf2_step fuel args depth l0 l1 n0 n1 r :
  combineLeaf2H_step grow fuel args depth l0 l1 n0 n1 = Some r -> safe P Q r (fun r => P (fst r)).
Proof.
  unfold combineLeaf2H_step. destruct (c_eq args l0 n0); destruct (c_eq args l1 n1); intros [= <-];
    try apply safe_sliceBranch.
  eapply safe_bind; [gr|apply safe_alloc; cbn; auto|]; intros q Hq; apply safe_ret; auto.
Qed.

Lemma safe_combineLeaf2 fuel args depth l0 l1 n0 n1 :
  safe P Q (combineLeaf2H grow fuel args depth l0 l1 n0 n1) (fun r => P (fst r)).
Proof.
  unfold combineLeaf2H. destruct (combineLeaf2H_step _ _ _ _ _ _ n0 n1) eqn:E1; [eapply safe_combineLeaf2_step; eauto|].
  destruct (combineLeaf2H_step _ _ _ _ _ _ n1 n0) eqn:E2; [eapply safe_combineLeaf2_step; eauto|].
  apply safe_sliceBranch.
Qed.

Lemma safe_combineTwig_dropped fuel args depth l rest :
  safe P Q (combineTwigH_dropped grow fuel args depth l rest) (fun _ => True).
Proof.
  unfold combineTwigH_dropped. eapply safe_bind; [gr|apply safe_emptyBranch|]. intros b Hb.
  apply safe_foldMM; auto; try gr. intros s e _. eapply safe_bind; [gr|apply safe_addH; auto|]. intros [q m'] _. apply safe_ret; auto.
Qed.

Lemma safe_combineTwig_scan fuel args depth ndata : forall sl cloned matches, Q (fst sl) ->
  safe P Q (combineTwigH_scan grow fuel args depth sl cloned ndata matches) (fun r => Q (fst (fst r))).
Proof.
  induction ndata as [|e rest IH]; intros sl cloned matches Hsl; cbn [combineTwigH_scan].
  - apply safe_ret; auto.
  - eapply safe_bind; [gr|apply safe_elemsOf|]. intros l _. destruct (indexOf _ l) as [j|].
    + eapply (safe_bind _ _ (fun sl => Q (fst sl))); [gr| |].
      { destruct cloned; [apply safe_ret; auto|apply safe_cloneSlice]. }
      intros sl' Hsl'. eapply safe_bind; [gr|apply safe_setSlot; auto|]. intros _ _. apply IH; auto.
    + destruct (snd sl <? maxLeafLen).
      * eapply safe_bind; [gr|apply safe_append; auto|]. intros sl' Hsl'. apply IH; auto.
      * eapply safe_bind; [gr|apply safe_combineTwig_dropped|]. intros m _. apply IH; auto.
Qed.

Lemma safe_combineTwig fuel args depth sl sl2 : Q (fst sl) ->
  safe P Q (combineTwigH grow fuel args depth sl sl2) (fun r => P (fst r)).
Proof.
  intros Hsl. unfold combineTwigH. eapply safe_bind; [gr|apply safe_elemsOf|]. intros ndata _.
  eapply safe_bind; [gr|apply safe_combineTwig_scan; auto|]. intros [sl' m] Hsl'. cbn in Hsl'.
  destruct (maxLeafLen <? snd sl'); [apply safe_fail; discriminate|].
  eapply safe_bind; [gr|apply safe_newCanonical; auto|]. intros [q|] Hq; [|apply safe_fail; discriminate].
  apply safe_ret. apply Hq. auto.
Qed.

Lemma safe_with2 fuel args p a b depth : P p -> safe P Q (with2H grow fuel args p a b depth) (fun r => P (fst r)).
Proof.
  intros Hp. unfold with2H. eapply safe_bind; [gr|apply safe_withH; auto|]. intros [q m1] Hq. cbn in Hq.
  eapply safe_bind; [gr|apply safe_withH; auto|]. intros [q2 m2] Hq2. apply safe_ret; auto.
Qed.

Lemma safe_combineH fuel : forall args p p2 depth, P p -> P p2 ->
  safe P Q (combineH grow fuel args p p2 depth) (fun r => P (fst r)).
Proof.
  induction fuel as [|k IH]; intros args p p2 depth Hp Hp2; cbn [combineH]; [apply safe_fail; discriminate|].
  eapply safe_bind; [gr|apply safe_load; auto|]. intros o Ho. eapply safe_bind; [gr|apply safe_load; auto|]. intros o2 Ho2.
  destruct o as [a|a b|r len|m d], o2 as [a2|a2 b2|r2 len2|m2 d2]; try (apply safe_fail; discriminate).
  - apply safe_combineLeaf1.
  - apply safe_combineLeaf21.
  - apply safe_withH; auto.
  - apply safe_combineLeaf21.
  - apply safe_combineLeaf2.
  - apply safe_with2; auto.
  - apply safe_combineTwig; auto.
  - apply safe_withH; auto.
  - apply safe_with2; auto.
  - eapply safe_bind; [gr| |].
    { apply safe_parallel; [gr|]. intros i. destruct (childP d i) as [x|] eqn:Ex, (childP d2 i) as [y|] eqn:Ey.
      - eapply safe_bind; [gr|apply IH; [exact (points_child _ _ _ _ Ho Ex)|exact (points_child _ _ _ _ Ho2 Ey)]|]. intros [q m'] Hq. apply safe_ret; cbn; auto.
      - apply safe_ret. cbn. apply optP_Some. exact (points_child _ _ _ _ Ho Ex).
      - apply safe_ret. cbn. apply optP_Some. exact (points_child _ _ _ _ Ho2 Ey).
      - apply safe_ret. cbn. apply optP_None. }
    intros [data matches] Hd. eapply safe_bind; [gr|apply (safe_newBranch 0%N); exact Hd|].
    intros q Hq. apply safe_ret; auto.
Qed.

Lemma safe_has_at fuel p e depth : safe P Q (has_atH fuel p e depth) (fun _ => True).
Proof. unfold has_atH. eapply safe_bind; [gr|apply safe_get|]. intros o _. apply safe_ret; auto. Qed.

Lemma safe_filterGet fuel keep l : forall p depth sl matches, Q (fst sl) ->
  safe P Q (filterGetH grow fuel keep l p depth sl matches) (fun r => Q (fst (fst r))).
Proof.
  induction l as [|e l IH]; intros p depth sl matches Hsl; cbn [filterGetH]; [apply safe_ret; auto|].
  eapply safe_bind; [gr|apply safe_has_at|]. intros b _. eapply (safe_bind _ _ (fun sl => Q (fst sl))); [gr| |].
  { destruct (Bool.eqb b keep); [apply safe_append; auto|apply safe_ret; auto]. }
  intros sl' Hsl'. apply IH; auto.
Qed.

Lemma safe_filterTwig fuel keep l p depth :
  safe P Q (bindM (newSlice []) (fun sl0 => bindM (filterGetH grow fuel keep l p depth sl0 0%Z)
     (fun x => match x with (sl, m) => bindM (newCanonicalH grow fuel depth sl) (fun o => ret (o, m)) end)))
  (fun r => optP (fst r)).
Proof.
  eapply safe_bind; [gr|apply safe_newSlice|]. intros sl0 H0. eapply safe_bind; [gr|apply safe_filterGet; auto|].
  intros [sl m] Hsl. eapply safe_bind; [gr|apply safe_newCanonical; auto|]. intros o Ho. apply safe_ret; auto.
Qed.

Lemma safe_packer fuel data (m : Z) : points P Q (OBranch 0%N data) ->
  safe P Q (bindM (newBranchH (updateMaskP data, data)) (fun q => bindM (canonicalBranchH grow fuel q) (fun o => ret (o, m))))
    (fun r => optP (fst r)).
Proof.
  intros Hd. eapply safe_bind; [gr|eapply safe_newBranch; exact Hd|]. intros q Hq.
  eapply safe_bind; [gr|apply safe_canonicalBranch; auto|]. intros o Ho. apply safe_ret; auto.
Qed.

Lemma safe_differenceH fuel : forall g p p2 depth, P p -> P p2 ->
  safe P Q (differenceH grow fuel g p p2 depth) (fun r => optP (fst r)).
Proof.
  induction fuel as [|k IH]; intros g p p2 depth Hp Hp2; cbn [differenceH]; [apply safe_fail; discriminate|].
  eapply safe_bind; [gr|apply safe_load; auto|]. intros [a|a b|r len|m d] Ho.
  - eapply safe_bind; [gr|apply safe_has_at|]. intros [|] _; apply safe_ret; cbn; auto.
  - eapply safe_bind; [gr|apply safe_has_at|]. intros x _. eapply safe_bind; [gr|apply safe_has_at|]. intros y _.
    destruct x, y; try (apply safe_ret; cbn; auto);
      (eapply safe_bind; [gr|apply safe_alloc; cbn; auto|]; intros q Hq; apply safe_ret; cbn; auto).
  - eapply safe_bind; [gr|apply safe_elemsOf|]. intros l _. apply safe_filterTwig.
  - eapply safe_bind; [gr|apply safe_load; auto|]. intros [a|a b|r len|m2 d2] Ho2.
    + apply safe_withoutH; auto.
    + eapply safe_bind; [gr|apply safe_withoutH; auto|]. intros [[q|] m1] Hq; [|apply safe_fail; discriminate].
      eapply safe_bind; [gr|apply safe_withoutH; apply Hq; auto|]. intros [o2 m2] Ho'. apply safe_ret; auto.
    + apply safe_fail; discriminate.
    + eapply safe_bind; [gr| |].
      { apply safe_parallel; [gr|]. intros i. destruct (childP d i) as [x|] eqn:Ex, (childP d2 i) as [y|] eqn:Ey.
        - apply IH; [exact (points_child _ _ _ _ Ho Ex)|exact (points_child _ _ _ _ Ho2 Ey)].
        - apply safe_ret. cbn. apply optP_Some. exact (points_child _ _ _ _ Ho Ex).
        - apply safe_fail; discriminate.
        - apply safe_ret. cbn. apply optP_None. }
      intros [data matches] Hd. apply safe_packer; auto.
Qed.

Lemma safe_intersectLeaf1 fuel p a p2 depth : P p -> safe P Q (intersectLeaf1H fuel p a p2 depth) (fun r => optP (fst r)).
Proof.
  intros Hp. unfold intersectLeaf1H. eapply safe_bind; [gr|apply safe_has_at|]. intros [|] _; apply safe_ret; cbn; auto.
Qed.

Lemma safe_intersectLeaf2 fuel p a b p2 depth : P p -> safe P Q (intersectLeaf2H fuel p a b p2 depth) (fun r => optP (fst r)).
Proof.
  intros Hp. unfold intersectLeaf2H. eapply safe_bind; [gr|apply safe_has_at|]. intros x _.
  eapply safe_bind; [gr|apply safe_has_at|]. intros y _.
  destruct x, y; try (apply safe_ret; cbn; auto);
      (eapply safe_bind; [gr|apply safe_alloc; cbn; auto|]; intros q Hq; apply safe_ret; cbn; auto).
Qed.

Lemma safe_intersectionH fuel : forall g p p2 depth, P p -> P p2 ->
  safe P Q (intersectionH grow fuel g p p2 depth) (fun r => optP (fst r)).
Proof.
  induction fuel as [|k IH]; intros g p p2 depth Hp Hp2; cbn [intersectionH]; [apply safe_fail; discriminate|].
  eapply safe_bind; [gr|apply safe_load; auto|]. intros [a|a b|r len|m d] Ho.
  - apply safe_intersectLeaf1; auto.
  - apply safe_intersectLeaf2; auto.
  - eapply safe_bind; [gr|apply safe_elemsOf|]. intros l _. apply safe_filterTwig.
  - eapply safe_bind; [gr|apply safe_load; auto|]. intros [a|a b|r len|m2 d2] Ho2.
    + apply safe_intersectLeaf1; auto.
    + apply safe_intersectLeaf2; auto.
    + apply safe_fail; discriminate.
    + eapply safe_bind; [gr| |].
      { apply safe_parallel; [gr|]. intros i. destruct (childP d i) as [x|] eqn:Ex, (childP d2 i) as [y|] eqn:Ey;
          try (apply safe_fail; discriminate). apply IH; [exact (points_child _ _ _ _ Ho Ex)|exact (points_child _ _ _ _ Ho2 Ey)]. }
      intros [data matches] Hd. apply safe_packer; auto.
Qed.

Lemma safe_filterPred pred l : forall sl matches, Q (fst sl) ->
  safe P Q (filterPredH grow pred l sl matches) (fun r => Q (fst (fst r))).
Proof.
  induction l as [|e l IH]; intros sl matches Hsl; cbn [filterPredH]; [apply safe_ret; auto|].
  destruct (pred e); [|apply IH; auto]. eapply safe_bind; [gr|apply safe_append; auto|]. intros sl' Hsl'. apply IH; auto.
Qed.

Lemma safe_whereH fuel : forall g pred p depth, P p -> safe P Q (whereH grow fuel g pred p depth) (fun r => optP (fst r)).
Proof.
  induction fuel as [|k IH]; intros g pred p depth Hp; cbn [whereH]; [apply safe_fail; discriminate|].
  eapply safe_bind; [gr|apply safe_load; auto|]. intros [a|a b|r len|m d] Ho.
  - destruct (pred a); apply safe_ret; cbn; auto.
  - destruct (pred a), (pred b); try (apply safe_ret; cbn; auto);
      (eapply safe_bind; [gr|apply safe_alloc; cbn; auto|]; intros q Hq; apply safe_ret; cbn; auto).
  - eapply safe_bind; [gr|apply safe_elemsOf|]. intros l _.
    eapply safe_bind; [gr|apply safe_newSlice|]. intros sl0 H0. eapply safe_bind; [gr|apply safe_filterPred; auto|].
    intros [sl m] Hsl. eapply safe_bind; [gr|apply safe_newCanonical; auto|]. intros o Ho'. apply safe_ret; auto.
  - eapply safe_bind; [gr| |].
    { apply safe_parallel; [gr|]. intros i. destruct (childP d i) as [x|] eqn:Ex; [|apply safe_fail; discriminate].
      apply IH; eapply points_child; eauto. }
    intros [nodes matches] Hd. destruct (_ && _)%bool; [apply safe_ret; cbn; auto|]. apply safe_packer; auto.
Qed.

End Rules.

(** ** Operations that only add to the heap *)

(** A location that did not exist in [h]. *)
Definition newIn (h : heap) : loc -> Prop := locIn (fun p => length (h_objs h) <= p) (fun r => length (h_arrs h) <= r).

(** All old objects and arrays are as they were, and no assignment was made to any of them. *)
Definition addonly (h h' : heap) : Prop :=
  (exists l, h_objs h' = h_objs h ++ l) /\ (exists l, h_arrs h' = h_arrs h ++ l) /\
  (exists l, h_log h' = h_log h ++ l /\ Forall (newIn h) l).
Definition adds {A} (m : M A) : Prop := forall h, addonly h (snd (m h)).

Lemma addonly_refl h : addonly h h.
Proof. split; [|split]; exists []; rewrite app_nil_r; auto. Qed.
Lemma addonly_trans h1 h2 h3 : addonly h1 h2 -> addonly h2 h3 -> addonly h1 h3.
Proof.
  intros ([l1 A1] & [l2 A2] & l5 & A3 & A4) ([l3 B1] & [l4 B2] & l6 & B3 & B4).
  split; [|split]; [exists (l1 ++ l3)|exists (l2 ++ l4)|exists (l5 ++ l6)]; rewrite app_assoc; try congruence.
  split; [congruence|]. apply Forall_app. split; [auto|]. eapply Forall_impl; [|exact B4].
  unfold newIn. rewrite A1, A2, !app_length. intros [p|r i|r]; cbn; lia.
Qed.

Lemma prefix_nth {A} (l l' : list A) : length l <= length l' ->
  (forall p, p < length l -> nth_error l' p = nth_error l p) -> exists x, l' = l ++ x.
Proof.
  revert l'; induction l as [|a l IH]; intros l' H1 H2; [exists l'; auto|].
  destruct l' as [|b l']; cbn in H1; [lia|]. specialize (H2 0) as H3. cbn in H3.
  assert (b = a) by (assert (Some b = Some a) by (apply H3; lia); congruence). subst b.
  destruct (IH l') as [x ->]; [lia| |exists x; auto].
  intros p Hp. apply (H2 (S p)). cbn. lia.
Qed.

(** An operation that is safe in every region is safe in the region of new addresses. *)
Lemma safe_addonly {A} (m : M A) post : (forall P Q, safe P Q m post) -> forall h, addonly h (snd (m h)).
Proof.
  intros H h. destruct (safe_roomy (fun p => length (h_objs h) <= p) (fun r => length (h_arrs h) <= r) m post h) as (_ & (L1 & L2 & H1 & H2 & _ & HL) & _); [apply H| |].
  { split; [|auto]. intros p o Hp Ho. assert (p < length (h_objs h)); [|lia]. apply nth_error_Some. congruence. }
  split; [|split; [|exact HL]]; apply prefix_nth; auto; intros p Hp; [apply H1|apply H2]; lia.
Qed.

Lemma adds_safe {A} (m : M A) : (forall P Q, safe P Q m (fun _ => True)) -> adds m.
Proof. intros H h. eapply safe_addonly. exact H. Qed.

Lemma adds_ret {A} (a : A) : adds (ret a).
Proof. intros h. apply addonly_refl. Qed.
Lemma adds_fail {A} (r : res A) : adds (fail r).
Proof. intros h. apply addonly_refl. Qed.
Lemma adds_bind {A B} (m : M A) (k : A -> M B) : adds m -> (forall a, adds (k a)) -> adds (bindM m k).
Proof.
  intros Hm Hk h. specialize (Hm h). unfold bindM. destruct (m h) as [[a| |] h']; cbn in *; auto.
  eapply addonly_trans; [exact Hm|apply Hk].
Qed.
Lemma adds_load p : adds (load p).
Proof. apply adds_safe. intros. apply safe_load_any. Qed.
Lemma adds_alloc o : adds (alloc o).
Proof. intros h. split; [|split]; cbn; [exists [o]|exists []; rewrite app_nil_r|exists []; rewrite app_nil_r]; auto. Qed.
Lemma adds_elemsOf sl : adds (elemsOf sl).
Proof. apply adds_safe. intros. apply safe_elemsOf. Qed.
Lemma adds_newSlice data : adds (newSlice data).
Proof. apply adds_safe. intros. eapply safe_weaken; [apply safe_newSlice|auto]. Qed.
Lemma adds_appendTo fuel cap p dest : adds (appendToH fuel cap p dest).
Proof. apply adds_safe. intros. apply safe_appendTo. Qed.
Lemma adds_has_at fuel p e depth : adds (has_atH fuel p e depth).
Proof. apply adds_safe. intros. apply safe_has_at. Qed.

Lemma adds_canonicalBranch fuel p : adds (canonicalBranchH grow fuel p).
Proof.
  unfold canonicalBranchH. apply adds_bind; [apply adds_appendTo|]. intros [d|]; [|apply adds_ret].
  apply adds_safe. intros P Q. eapply safe_bind; [gr|apply safe_newSlice|]. intros sl Hsl.
  eapply safe_weaken; [apply safe_newCanonical; auto|auto].
Qed.

Lemma adds_withoutH fuel : forall p v depth h, adds (withoutH grow fuel p v depth h).
Proof.
  induction fuel as [|k IH]; intros p v depth h; cbn [withoutH]; [apply adds_fail|].
  apply adds_bind; [apply adds_load|]. intros [a|a b|r len|m d].
  - destruct (veq a v); apply adds_ret.
  - destruct (veq a v); [|destruct (veq b v)]; try apply adds_ret;
      (apply adds_bind; [apply adds_alloc|intros; apply adds_ret]).
  - apply adds_bind; [apply adds_elemsOf|]. intros l. destruct (indexOf _ l) as [i|]; [|apply adds_ret].
    apply adds_safe. intros P Q. eapply safe_bind; [gr|apply safe_cloneSlice|]. intros sl Hsl.
    eapply safe_bind; [gr|apply safe_newTwig; auto|]. intros q Hq. eapply (safe_bind _ _ _ _ (fun _ => True)); [gr| |].
    { destruct (i =? snd sl); [apply safe_ret; auto|apply safe_setSlot; auto]. }
    intros _ _. eapply safe_bind; [gr|apply safe_canonicalTwig; auto|]. intros o Ho'. apply safe_ret; auto.
  - destruct (childP d (h_hash h)) as [c|]; [|apply adds_ret].
    apply adds_bind; [apply IH|]. intros [q m']. destruct (ptr_eqb q (Some c)); [apply adds_ret|].
    apply adds_bind; [apply adds_alloc|]. intros q2. apply adds_bind; [apply adds_canonicalBranch|]. intros o. apply adds_ret.
Qed.

Lemma adds_parallel g depth mask (f : nat -> M (option nat * Z)) :
  (forall i, adds (f i)) -> adds (parallelH g depth mask f).
Proof.
  intros Hf. unfold parallelH. generalize (par_order g depth mask) 0%Z emptyDataP.
  intros order. induction order as [|i order IH]; intros m data; cbn [parallelH_loop]; [apply adds_ret|].
  apply adds_bind; [apply Hf|]. intros [r m']. apply IH.
Qed.

Lemma adds_filterTwig fuel keep l p depth :
  adds (bindM (newSlice []) (fun sl0 => bindM (filterGetH grow fuel keep l p depth sl0 0%Z)
     (fun x => match x with (sl, m) => bindM (newCanonicalH grow fuel depth sl) (fun o => ret (o, m)) end))).
Proof. apply adds_safe. intros P Q. eapply safe_weaken; [apply safe_filterTwig|auto]. Qed.

Lemma adds_packer fuel data (m : Z) :
  adds (bindM (newBranchH (updateMaskP data, data)) (fun q => bindM (canonicalBranchH grow fuel q) (fun o => ret (o, m)))).
Proof.
  apply adds_bind; [apply adds_alloc|]. intros q. apply adds_bind; [apply adds_canonicalBranch|]. intros o. apply adds_ret.
Qed.

Lemma adds_differenceH fuel : forall g p p2 depth, adds (differenceH grow fuel g p p2 depth).
Proof.
  induction fuel as [|k IH]; intros g p p2 depth; cbn [differenceH]; [apply adds_fail|].
  apply adds_bind; [apply adds_load|]. intros [a|a b|r len|m d].
  - apply adds_bind; [apply adds_has_at|]. intros [|]; apply adds_ret.
  - apply adds_bind; [apply adds_has_at|]. intros x. apply adds_bind; [apply adds_has_at|]. intros y.
    destruct x, y; try apply adds_ret; (apply adds_bind; [apply adds_alloc|intros; apply adds_ret]).
  - apply adds_bind; [apply adds_elemsOf|]. intros l. apply adds_filterTwig.
  - apply adds_bind; [apply adds_load|]. intros [a|a b|r len|m2 d2].
    + apply adds_withoutH.
    + apply adds_bind; [apply adds_withoutH|]. intros [[q|] m1]; [|apply adds_fail].
      apply adds_bind; [apply adds_withoutH|]. intros [o2 m2]. apply adds_ret.
    + apply adds_fail.
    + apply adds_bind; [|intros [data matches]; apply adds_packer].
      apply adds_parallel. intros i. destruct (childP d i), (childP d2 i); try apply adds_ret; [apply IH|apply adds_fail].
Qed.

Lemma adds_intersectLeaf1 fuel p a p2 depth : adds (intersectLeaf1H fuel p a p2 depth).
Proof. unfold intersectLeaf1H. apply adds_bind; [apply adds_has_at|]. intros [|]; apply adds_ret. Qed.
Lemma adds_intersectLeaf2 fuel p a b p2 depth : adds (intersectLeaf2H fuel p a b p2 depth).
Proof.
  unfold intersectLeaf2H. apply adds_bind; [apply adds_has_at|]. intros x. apply adds_bind; [apply adds_has_at|]. intros y.
  destruct x, y; try apply adds_ret; (apply adds_bind; [apply adds_alloc|intros; apply adds_ret]).
Qed.

Lemma adds_intersectionH fuel : forall g p p2 depth, adds (intersectionH grow fuel g p p2 depth).
Proof.
  induction fuel as [|k IH]; intros g p p2 depth; cbn [intersectionH]; [apply adds_fail|].
  apply adds_bind; [apply adds_load|]. intros [a|a b|r len|m d].
  - apply adds_intersectLeaf1.
  - apply adds_intersectLeaf2.
  - apply adds_bind; [apply adds_elemsOf|]. intros l. apply adds_filterTwig.
  - apply adds_bind; [apply adds_load|]. intros [a|a b|r len|m2 d2].
    + apply adds_intersectLeaf1.
    + apply adds_intersectLeaf2.
    + apply adds_fail.
    + apply adds_bind; [|intros [data matches]; apply adds_packer].
      apply adds_parallel. intros i. destruct (childP d i), (childP d2 i); try apply adds_fail. apply IH.
Qed.

Lemma adds_whereH fuel : forall g pred p depth, adds (whereH grow fuel g pred p depth).
Proof.
  induction fuel as [|k IH]; intros g pred p depth; cbn [whereH]; [apply adds_fail|].
  apply adds_bind; [apply adds_load|]. intros [a|a b|r len|m d].
  - destruct (pred a); apply adds_ret.
  - destruct (pred a), (pred b); try apply adds_ret; (apply adds_bind; [apply adds_alloc|intros; apply adds_ret]).
  - apply adds_bind; [apply adds_elemsOf|]. intros l.
    apply adds_safe. intros P Q. eapply safe_bind; [gr|apply safe_newSlice|]. intros sl0 H0.
    eapply safe_bind; [gr|apply safe_filterPred; auto|].
    intros [sl m] Hsl. eapply safe_bind; [gr|apply safe_newCanonical; auto|]. intros o Ho'. apply safe_ret; auto.
  - apply adds_bind.
    + apply adds_parallel. intros i. destruct (childP d i); [apply IH|apply adds_fail].
    + intros [nodes matches]. destruct (_ && _)%bool; [apply adds_ret|apply adds_packer].
Qed.

End Frame.
