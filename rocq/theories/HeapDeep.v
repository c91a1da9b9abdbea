(** * HeapDeep: the levels of the nodes, in all programs.

    A list [dep] gives every object a level. [at_ dep os p d]: the object at [p] can serve as a node at depth [d]: it is a
    leaf, or its level is [d]. [wok dep os]: twigs have level [maxTreeDepth] or more, no branch has level [maxTreeDepth],
    and the children of a branch of level [d] can serve at depth [d + 1].
    (Branches of higher levels exist: twig.go:131-139 builds one and drops it.)
    Nothing is assumed about elements, hashes, growth of arrays or the absence of overwritten slots. *)
From Verif Require Import Base Bits Env EnvFacts Node NodeWf NodeAdd Tree HeapModel HeapFrame HeapOwn HeapRep HeapProg HeapAlloc.
Local Open Scope nat_scope.

Section Deep.
Context {E : Env} {T : Type} {K : Key T} (grow : nat -> nat -> nat).
Notation obj := (obj (T := T)).
Notation heap := (heap (T := T)).
Notation M := (M (T := T)).
Local Opaque maxTreeDepth fanout fb.

Definition leafAt (os : list obj) (p : nat) : Prop := exists o, nth_error os p = Some o /\ leafObj true o.
Definition at_ (dep : list nat) (os : list obj) (p d : nat) : Prop := leafAt os p \/ nth_error dep p = Some d.
Definition atO (dep : list nat) (os : list obj) (o : option nat) (d : nat) : Prop := match o with None => True | Some p => at_ dep os p d end.
Definition atAll (dep : list nat) (os : list obj) (da : list (option nat)) (d : nat) : Prop := forall c, In (Some c) da -> at_ dep os c d.
Definition okObj (dep : list nat) (os : list obj) (d : nat) (o : obj) : Prop :=
  match o with
  | OLeaf1 _ | OLeaf2 _ _ => True
  | OTwig _ _ => maxTreeDepth <= d
  | OBranch _ da => d <> maxTreeDepth /\ atAll dep os da (S d)
  end.
Definition wok (dep : list nat) (os : list obj) : Prop := length dep = length os /\
  forall p o d, nth_error os p = Some o -> nth_error dep p = Some d -> okObj dep os d o.
Definition ext (dep : list nat) (os : list obj) (dep' : list nat) (os' : list obj) : Prop :=
  (forall p d, nth_error dep p = Some d -> nth_error dep' p = Some d) /\ (forall p, leafAt os p -> leafAt os' p) /\
  length os <= length os' /\ forall p, p < length os -> leafAt os' p -> leafAt os p.

Lemma ext_refl dep os : ext dep os dep os.
Proof. split; auto. Qed.
Lemma leafAt_lt os p : leafAt os p -> p < length os.
Proof. intros (o & H & _). eapply nth_error_Some_lt; eauto. Qed.
Lemma ext_trans dep os dep1 os1 dep2 os2 : ext dep os dep1 os1 -> ext dep1 os1 dep2 os2 -> ext dep os dep2 os2.
Proof.
  intros (A1 & A2 & A3 & A4) (B1 & B2 & B3 & B4). split; auto. split; auto. split; [lia|]. intros p Hp H. apply A4; auto. apply B4; auto. lia.
Qed.
Lemma at_ext dep os dep' os' p d : ext dep os dep' os' -> at_ dep os p d -> at_ dep' os' p d.
Proof. intros (A1 & A2 & _) [H|H]; [left|right]; auto. Qed.
Lemma atO_ext dep os dep' os' p d : ext dep os dep' os' -> atO dep os p d -> atO dep' os' p d.
Proof. destruct p; cbn; auto. apply at_ext. Qed.
Lemma atAll_ext dep os dep' os' da d : ext dep os dep' os' -> atAll dep os da d -> atAll dep' os' da d.
Proof. intros H Ha c Hc. eapply at_ext; eauto. Qed.
Lemma okObj_ext dep os dep' os' d o : ext dep os dep' os' -> okObj dep os d o -> okObj dep' os' d o.
Proof. intros H. destruct o; cbn; auto. intros [H1 H2]. split; auto. eapply atAll_ext; eauto. Qed.
Lemma atAll_set dep os da i o d : atAll dep os da d -> atO dep os o d -> atAll dep os (set_nth da i o) d.
Proof. intros H Ho c Hc. destruct (in_set_nth _ _ _ _ Hc) as [Hx|Hx]; auto. subst o. exact Ho. Qed.
Lemma atAll_child dep os da i c d : atAll dep os da d -> childP da i = Some c -> at_ dep os c d.
Proof. intros H Hc. apply H. eapply childP_in; eauto. Qed.
Lemma atAll_childO dep os da i d : atAll dep os da d -> atO dep os (childP da i) d.
Proof. intros H. destruct (childP da i) eqn:Ec; cbn; auto. eapply atAll_child; eauto. Qed.
Lemma atAll_empty dep os d : atAll dep os emptyDataP d.
Proof. intros c Hc. unfold emptyDataP in Hc. apply repeat_spec in Hc. discriminate. Qed.

(** What an object reached at depth [d] is. *)
Lemma at_twig dep os p d r len : wok dep os -> at_ dep os p d -> nth_error os p = Some (OTwig r len) -> maxTreeDepth <= d /\ nth_error dep p = Some d.
Proof.
  intros [_ Hw] [(o & Ho & Hl)|H] Hp; [rewrite Hp in Ho; inversion Ho; subst; destruct Hl|]. split; auto. exact (Hw p _ d Hp H).
Qed.
Lemma at_branch dep os p d m da : wok dep os -> at_ dep os p d -> nth_error os p = Some (OBranch m da) ->
  d <> maxTreeDepth /\ atAll dep os da (S d) /\ nth_error dep p = Some d.
Proof.
  intros [_ Hw] [(o & Ho & Hl)|H] Hp; [rewrite Hp in Ho; inversion Ho; subst; destruct Hl|]. destruct (Hw p _ d Hp H). auto.
Qed.

(** ** Computations *)

Definition grows {A} (dep : list nat) (h : heap) (m : M A) (post : A -> list nat -> list obj -> Prop) : Prop :=
  wok dep (h_objs h) ->
  exists dep', wok dep' (h_objs (snd (m h))) /\ ext dep (h_objs h) dep' (h_objs (snd (m h))) /\
    forall a, fst (m h) = Ok a -> post a dep' (h_objs (snd (m h))).

Lemma g_ret {A} dep h (a : A) (post : A -> list nat -> list obj -> Prop) : post a dep (h_objs h) -> grows dep h (ret a) post.
Proof. intros H Hw. exists dep. split; auto. split; [apply ext_refl|]. intros x Hx. inversion Hx; subst. auto. Qed.
Lemma g_fail {A} dep h (r : res A) post : (forall a, r <> Ok a) -> grows dep h (fail r) post.
Proof. intros H Hw. exists dep. split; auto. split; [apply ext_refl|]. intros x Hx. destruct (H x Hx). Qed.
Lemma g_weaken {A} dep h (m : M A) (post post' : A -> list nat -> list obj -> Prop) : grows dep h m post ->
  (forall a dep' os', ext dep (h_objs h) dep' os' -> post a dep' os' -> post' a dep' os') -> grows dep h m post'.
Proof. intros H Hp Hw. destruct (H Hw) as (dep' & H1 & H2 & H3). exists dep'. split; auto. Qed.
Lemma g_bind {A B} dep h (m : M A) (k : A -> M B) post post' : grows dep h m post ->
  (forall a dep' h', ext dep (h_objs h) dep' (h_objs h') -> post a dep' (h_objs h') -> grows dep' h' (k a) post') ->
  grows dep h (bindM m k) post'.
Proof.
  intros Hm Hk Hw. destruct (Hm Hw) as (dep1 & W1 & X1 & P1). unfold bindM. destruct (m h) as [[a| |] h1] eqn:E1; cbn [fst snd] in *.
  - destruct (Hk a dep1 h1 X1 (P1 a eq_refl) W1) as (dep2 & W2 & X2 & P2). exists dep2. split; auto. split; auto. eapply ext_trans; eauto.
  - exists dep1. split; auto. split; auto. discriminate.
  - exists dep1. split; auto. split; auto. discriminate.
Qed.
(** Use of the invariant. *)
Lemma g_wok {A} dep h (m : M A) post : (wok dep (h_objs h) -> grows dep h m post) -> grows dep h m post.
Proof. intros H Hw. apply H; auto. Qed.

(** Steps that leave the objects alone. *)
Definition still {A} (m : M A) : Prop := forall h, h_objs (snd (m h)) = h_objs h.
Lemma still_ret {A} (a : A) : still (ret a). Proof. intros h. reflexivity. Qed.
Lemma still_fail {A} (r : res A) : still (fail r). Proof. intros h. reflexivity. Qed.
Lemma still_bind {A B} (m : M A) (k : A -> M B) : still m -> (forall a, still (k a)) -> still (bindM m k).
Proof.
  intros Hm Hk h. specialize (Hm h). unfold bindM. destruct (m h) as [[a| |] h1]; cbn in *; auto. rewrite Hk. auto.
Qed.
Lemma still_load p : still (load (T := T) p).
Proof. intros h. unfold load. destruct (nth_error _ _); reflexivity. Qed.
Lemma still_loadArr r : still (loadArr (T := T) r).
Proof. intros h. unfold loadArr. destruct (nth_error _ _); reflexivity. Qed.
Lemma still_storeArr r i a : still (storeArr (T := T) r i a). Proof. intros h. reflexivity. Qed.
Lemma still_elemsOf sl : still (elemsOf (T := T) sl).
Proof. apply still_bind; [apply still_loadArr|]. intros; apply still_ret. Qed.
Lemma still_newSlice data : still (newSlice (T := T) data). Proof. intros h. reflexivity. Qed.
Lemma still_setSlot sl i v : still (setSlot (T := T) sl i v).
Proof. apply still_bind; [apply still_loadArr|]. intros; apply still_storeArr. Qed.
Lemma still_append sl v : still (append grow sl v).
Proof.
  unfold append. destruct sl as [r len]. apply still_bind; [apply still_loadArr|]. intros a. destruct (len <? a_cap a); intros h; reflexivity.
Qed.
Lemma still_cloneSlice sl : still (cloneSlice (T := T) sl).
Proof. apply still_bind; [apply still_elemsOf|]. intros; apply still_newSlice. Qed.
Lemma still_appendTo fuel cap : (forall p dest, still (appendToH (T := T) fuel cap p dest)) /\ (forall d dest, still (appendAllH (T := T) fuel cap d dest)).
Proof.
  induction fuel as [|k [IH1 IH2]]; [split; intros; apply still_fail|]. split.
  - intros p dest. cbn [appendToH]. apply still_bind; [apply still_load|]. intros [a|a b|r len|m d]; try apply still_ret; auto.
    apply still_bind; [apply still_elemsOf|]. intros; apply still_ret.
  - intros [|[c|] d] dest; cbn [appendAllH]; [apply still_ret| |auto]. apply still_bind; [auto|]. intros [x|]; [auto|apply still_ret].
Qed.
Lemma still_getH fuel : forall p v hs, still (getH (T := T) fuel p v hs).
Proof.
  induction fuel as [|k IH]; intros p v hs; cbn [getH]; [apply still_fail|]. apply still_bind; [apply still_load|].
  intros [a|a b|r len|m d]; try apply still_ret.
  - apply still_bind; [apply still_elemsOf|]. intros; apply still_ret.
  - destruct (childP d (h_hash hs)); [apply IH|apply still_ret].
Qed.
Lemma still_has_at fuel p e d : still (has_atH (T := T) fuel p e d).
Proof. apply still_bind; [apply still_getH|]. intros; apply still_ret. Qed.
Lemma still_filterGet fuel keep l p d : forall sl m, still (filterGetH grow fuel keep l p d sl m).
Proof.
  induction l as [|e l IH]; intros sl m; cbn [filterGetH]; [apply still_ret|]. apply still_bind; [apply still_has_at|]. intros b.
  apply still_bind; [destruct (Bool.eqb b keep); [apply still_append|apply still_ret]|]. intros sl'. apply IH.
Qed.
Lemma still_filterPred pred l : forall sl m, still (filterPredH grow pred l sl m).
Proof.
  induction l as [|e l IH]; intros sl m; cbn [filterPredH]; [apply still_ret|]. destruct (pred e); [|apply IH].
  apply still_bind; [apply still_append|]. intros sl'. apply IH.
Qed.

Lemma g_still {A B} dep h (m : M A) (k : A -> M B) post : still m ->
  (forall a h', fst (m h) = Ok a -> h_objs h' = h_objs h -> grows dep h' (k a) post) -> grows dep h (bindM m k) post.
Proof.
  intros Hs Hk Hw. specialize (Hs h). unfold bindM. destruct (m h) as [[a| |] h1] eqn:E1; cbn [fst snd] in *.
  - assert (Hw1 : wok dep (h_objs h1)) by (rewrite Hs; auto). destruct (Hk a h1 eq_refl Hs Hw1) as (dep' & H1 & H2 & H3).
    exists dep'. rewrite Hs in H2. auto.
  - exists dep. rewrite Hs. split; auto. split; [apply ext_refl|]. discriminate.
  - exists dep. rewrite Hs. split; auto. split; [apply ext_refl|]. discriminate.
Qed.
Lemma g_load {B} dep h p (k : obj -> M B) post : (forall o, nth_error (h_objs h) p = Some o -> grows dep h (k o) post) ->
  grows dep h (bindM (load p) k) post.
Proof.
  intros Hk Hw. unfold bindM, load. destruct (nth_error (h_objs h) p) as [o|] eqn:E1.
  - apply (Hk o); auto.
  - exists dep. split; auto. split; [apply ext_refl|]. discriminate.
Qed.

(** ** Allocating and assigning *)

Lemma leafAt_snoc os (o : obj) p : leafAt os p -> leafAt (os ++ [o]) p.
Proof. intros (x & Hx & Hl). exists x. split; auto. rewrite nth_error_app1; auto. eapply nth_error_Some_lt; eauto. Qed.

Lemma g_alloc dep h (o : obj) d : okObj dep (h_objs h) d o ->
  grows dep h (alloc o) (fun p dep' os' => nth_error dep' p = Some d /\ nth_error os' p = Some o).
Proof.
  intros Ho [HL Hw]. cbn. exists (dep ++ [d]).
  assert (HX : ext dep (h_objs h) (dep ++ [d]) (h_objs h ++ [o])).
  { split; [|split; [|split]].
    - intros p x Hp. rewrite nth_error_app1; auto. eapply nth_error_Some_lt; eauto.
    - intros; apply leafAt_snoc; auto.
    - rewrite app_length. lia.
    - intros p Hp (x & Hx & Hl). rewrite nth_error_app1 in Hx by auto. exists x. auto. }
  split; [|split]; auto.
  - split; [rewrite !app_length; cbn; lia|]. intros p x e Hp He. eapply okObj_ext; [exact HX|].
    destruct (Nat.eq_dec p (length (h_objs h))) as [->|Hn].
    + rewrite nth_error_new in Hp. rewrite <- HL, nth_error_new in He. inversion Hp; inversion He; subst. auto.
    + assert (p < length (h_objs h)).
      { apply nth_error_Some_lt in Hp. rewrite app_length in Hp. cbn in Hp. lia. }
      rewrite nth_error_app1 in Hp by auto. rewrite nth_error_app1 in He by lia. eapply Hw; eauto.
  - intros a Ha. inversion Ha; subst. split; [rewrite <- HL|]; apply nth_error_new.
Qed.
Lemma g_leaf dep h (o : obj) d : leafObj true o -> grows dep h (alloc o) (fun p dep' os' => at_ dep' os' p d).
Proof.
  intros Ho. eapply g_weaken; [apply (g_alloc dep h o 0); destruct o; cbn in *; auto; contradiction|]. intros p dep' os' _ [_ H].
  left. exists o. auto.
Qed.
Lemma g_twig dep h sl d : maxTreeDepth <= d -> grows dep h (newTwigH sl) (fun p dep' os' => at_ dep' os' p d).
Proof. intros Hd. eapply g_weaken; [apply g_alloc; exact Hd|]. intros p dep' os' _ [H _]. right. auto. Qed.
Lemma g_branch dep h pk d : d <> maxTreeDepth -> atAll dep (h_objs h) (snd pk) (S d) ->
  grows dep h (newBranchH pk) (fun p dep' os' => at_ dep' os' p d).
Proof.
  intros Hd Ha. eapply g_weaken; [apply g_alloc with (d := d); split; auto|]. intros p dep' os' _ [H _]. right. auto.
Qed.

Lemma g_store dep h p (o' : obj) d : (leafAt (h_objs h) p -> leafObj true o') -> (leafObj true o' -> leafAt (h_objs h) p) ->
  (nth_error dep p = Some d \/ leafObj true o') -> okObj dep (h_objs h) d o' -> grows dep h (store p o') (fun _ _ _ => True).
Proof.
  intros Hl Hl' Hd Ho' [HL Hw]. cbn. exists dep.
  assert (Hlt : p < length (h_objs h)).
  { destruct Hd as [Hd|Hd]; [apply nth_error_Some_lt in Hd; lia|]. apply leafAt_lt. auto. }
  assert (HX : ext dep (h_objs h) dep (set_nth (h_objs h) p o')).
  { split; auto. split; [|split; [rewrite set_nth_length; auto|]].
    - intros q Hq. destruct (Nat.eq_dec p q) as [<-|Hn].
      + exists o'. split; [apply nth_error_set_nth_eq; auto|]. auto.
      + destruct Hq as (x & Hx & Hxl). exists x. rewrite nth_error_set_nth_ne; auto.
    - intros q _ (x & Hx & Hxl). destruct (Nat.eq_dec p q) as [<-|Hn].
      + rewrite nth_error_set_nth_eq in Hx by auto. inversion Hx; subst. auto.
      + rewrite nth_error_set_nth_ne in Hx by auto. exists x. auto. }
  split; [|split]; auto. split; [rewrite set_nth_length; auto|]. intros q x e Hq He. eapply okObj_ext; [exact HX|].
  destruct (Nat.eq_dec p q) as [<-|Hn].
  - rewrite nth_error_set_nth_eq in Hq by auto. inversion Hq; subst.
    destruct Hd as [Hd|Hd]; [congruence|]. destruct x; cbn in *; auto; contradiction.
  - rewrite nth_error_set_nth_ne in Hq by auto. eapply Hw; eauto.
Qed.
Lemma g_store_leaf dep h p (o' : obj) : leafAt (h_objs h) p -> leafObj true o' -> grows dep h (store p o') (fun _ _ _ => True).
Proof. intros Hp Ho. apply (g_store dep h p o' 0); auto. destruct o'; cbn in *; auto; contradiction. Qed.
Lemma notLeaf_twig os p r len : nth_error os p = Some (OTwig r len) -> ~ leafAt os p.
Proof. intros H (o & Ho & Hl). rewrite H in Ho. inversion Ho; subst. exact Hl. Qed.
Lemma notLeaf_branch os p m da : nth_error os p = Some (OBranch m da) -> ~ leafAt os p.
Proof. intros H (o & Ho & Hl). rewrite H in Ho. inversion Ho; subst. exact Hl. Qed.
Lemma notLeaf_ext dep os dep' os' p d : ext dep os dep' os' -> wok dep os -> nth_error dep p = Some d -> ~ leafAt os p -> ~ leafAt os' p.
Proof. intros (_ & _ & _ & H) [HL _] Hd Hn Hl. apply Hn, H; auto. rewrite <- HL. eapply nth_error_Some_lt; eauto. Qed.

(** ** Adding *)

(** Parameter and level: the dropped branches of twig.go:131-139 are built below the last level. *)
Definition lv (dp d : nat) : Prop := dp = d \/ (maxTreeDepth <= dp /\ maxTreeDepth <= d).
Lemma lv_S dp d : lv dp d -> lv (S dp) (S d).
Proof. unfold lv. lia. Qed.
Lemma lv_refl d : lv d d.
Proof. left. auto. Qed.

Lemma g_foldMM {A S} (f : S -> A -> M S) (Inv : list nat -> list obj -> Prop) (l : list A) :
  (forall dep os dep' os', ext dep os dep' os' -> Inv dep os -> Inv dep' os') ->
  (forall s a dep h, Inv dep (h_objs h) -> grows dep h (f s a) (fun _ _ _ => True)) ->
  forall s dep h, Inv dep (h_objs h) -> grows dep h (foldMM f s l) (fun _ _ _ => True).
Proof.
  intros Hm Hf. induction l as [|a l IH]; intros s dep h HI; cbn [foldMM]; [apply g_ret; auto|].
  eapply g_bind; [apply Hf; auto|]. intros s' dep' h' HX _. apply IH. eapply Hm; eauto.
Qed.

Lemma g_newBranchFrom (addFast : nat -> T -> nat -> N -> M (nat * Z)) dp d sl dep h : lv dp d ->
  (forall b v hs dep h, at_ dep (h_objs h) b d -> grows dep h (addFast b v dp hs) (fun _ _ _ => True)) ->
  grows dep h (newBranchFromH_with addFast dp sl) (fun p dep' os' => at_ dep' os' p d).
Proof.
  intros Hlv Hadd. unfold newBranchFromH_with. destruct (Nat.leb_spec maxTreeDepth dp) as [Hd|Hd].
  - apply g_twig. unfold lv in Hlv. lia.
  - assert (dp = d) by (unfold lv in Hlv; lia). subst dp. apply g_still; [apply still_elemsOf|]. intros l h1 _ E1.
    eapply g_bind; [apply g_branch with (d := d); [lia|apply atAll_empty]|]. intros b dep2 h2 X2 Hb.
    eapply g_bind.
    + apply (g_foldMM _ (fun dep os => at_ dep os b d)); [intros; eapply at_ext; eauto| |exact Hb]. intros s a dep3 h3 H3. apply Hadd. auto.
    + intros _ dep3 h3 X3 _. apply g_ret. eapply at_ext; eauto.
Qed.

Lemma g_addH fuel : forall eq f p v dp d hs dep h, lv dp d -> at_ dep (h_objs h) p d ->
  grows dep h (addH grow fuel eq f p v dp hs) (fun r dep' os' => at_ dep' os' (fst r) d).
Proof.
  induction fuel as [|k IH]; intros eq f p v dp d hs dep h Hlv Hp; cbn [addH]; [apply g_fail; discriminate|].
  apply g_wok. intros Hw. apply g_load. intros [a|a b|r len|m da] Ho.
  - assert (Hl : leafAt (h_objs h) p) by (eexists; split; [exact Ho|exact Logic.I]). destruct (eq a v).
    + eapply g_bind; [apply g_store_leaf; [auto|exact Logic.I]|]. intros _ dep1 h1 X1 _. apply g_ret. eapply at_ext; eauto.
    + eapply g_bind; [eapply (g_leaf _ _ _ d); reflexivity|]. intros q dep1 h1 X1 Hq. apply g_ret. auto.
  - assert (Hl : leafAt (h_objs h) p) by (eexists; split; [exact Ho|reflexivity]). destruct (eq a v); [|destruct (eq b v)].
    + eapply g_bind; [apply g_store_leaf; [auto|reflexivity]|]. intros _ dep1 h1 X1 _. apply g_ret. eapply at_ext; eauto.
    + eapply g_bind; [apply g_store_leaf; [auto|reflexivity]|]. intros _ dep1 h1 X1 _. apply g_ret. eapply at_ext; eauto.
    + apply g_still; [apply still_newSlice|]. intros sl h1 _ E1. eapply g_bind.
      * apply (g_newBranchFrom _ dp d); [auto|]. intros b0 v0 hs0 dep0 h0 H0. eapply g_weaken; [eapply IH; eauto|auto].
      * intros q dep2 h2 X2 Hq. apply g_ret. auto.
  - destruct (at_twig _ _ _ _ _ _ Hw Hp Ho) as [Hd Hdep]. apply g_still; [apply still_elemsOf|]. intros l h1 _ E1.
    destruct (indexOf _ l) as [i|].
    + apply g_still; [apply still_setSlot|]. intros _ h2 _ E2. apply g_ret. cbn [fst]. rewrite E2, E1. auto.
    + apply g_still; [apply still_loadArr|]. intros a h2 _ E2. assert (Hdp : maxTreeDepth <= dp) by (unfold lv in Hlv; lia).
      rewrite (proj2 (Nat.leb_le maxTreeDepth dp) Hdp), orb_true_r. apply g_still; [apply still_append|]. intros sl h3 _ E3.
      eapply g_bind; [apply (g_store _ _ _ _ d); [rewrite E3, E2, E1; intros Hl; destruct (notLeaf_twig _ _ _ _ Ho Hl)|intros []|auto|exact Hd]|].
      intros _ dep1 h4 X4 _. apply g_ret. cbn [fst]. eapply at_ext; [exact X4|]. rewrite E3, E2, E1. auto.
  - destruct (at_branch _ _ _ _ _ _ Hw Hp Ho) as (Hd & Hch & Hdep).
    assert (Hst : forall q dep1 h1 (x : Z), ext dep (h_objs h) dep1 (h_objs h1) -> at_ dep1 (h_objs h1) q (S d) ->
      grows dep1 h1 (let pk := setNonNilChildP (m, da) (h_hash hs) (Some q) in
                     _ <~ store p (OBranch (fst pk) (snd pk)) ;; ret (p, x)) (fun r dep' os' => at_ dep' os' (fst r) d)).
    { intros q dep1 h1 x X1 Hq. cbn zeta. cbn [setNonNilChildP fst snd]. eapply g_bind.
      - apply (g_store _ _ _ _ d).
        + intros Hl. destruct (notLeaf_ext _ _ _ _ _ _ X1 Hw Hdep (notLeaf_branch _ _ _ _ Ho) Hl).
        + intros [].
        + left. apply X1. auto.
        + split; auto. apply atAll_set; [eapply atAll_ext; eauto|exact Hq].
      - intros _ dep2 h2 X2 _. apply g_ret. cbn [fst]. eapply at_ext; [exact X2|]. eapply at_ext; [exact X1|]. auto. }
    destruct (childP da (h_hash hs)) as [c|] eqn:Ec.
    + eapply g_bind; [apply (IH eq f c v (S dp) (S d)); [apply lv_S; auto|eapply atAll_child; eauto]|].
      intros [q x] dep1 h1 X1 Hq. apply Hst; auto.
    + eapply g_bind; [eapply (g_leaf _ _ _ (S d)); exact Logic.I|]. intros q dep1 h1 X1 Hq. apply Hst; auto.
Qed.

Lemma g_newBranchFromH k d sl dep h : grows dep h (newBranchFromH grow k d sl) (fun p dep' os' => at_ dep' os' p d).
Proof.
  apply g_newBranchFrom; [apply lv_refl|]. intros b v hs dep0 h0 H0. eapply g_weaken; [apply (g_addH k _ _ _ _ d d); auto; apply lv_refl|auto].
Qed.

(** ** Canonical forms *)

Lemma g_allocLeaf_some dep h (o : obj) d : leafObj true o -> grows dep h (q <~ alloc o ;; ret (Some q)) (fun r dep' os' => atO dep' os' r d).
Proof. intros Ho. eapply g_bind; [apply (g_leaf _ _ _ d); auto|]. intros q dep1 h1 X1 Hq. apply g_ret. exact Hq. Qed.

Lemma elemsOf_length (h : heap) sl l : fst (elemsOf sl h) = Ok l -> length l <= snd sl.
Proof.
  unfold elemsOf, bindM, loadArr. destruct (nth_error (h_arrs h) (fst sl)); [|discriminate]. cbn. intros E1. inversion E1; subst.
  rewrite firstn_length. lia.
Qed.

Lemma g_canonicalTwig k dp d p sl dep h : (snd sl <= 2 \/ dp = d /\ at_ dep (h_objs h) p d) ->
  grows dep h (canonicalTwigH grow k dp p sl) (fun r dep' os' => atO dep' os' r d).
Proof.
  intros H. unfold canonicalTwigH. apply g_still; [apply still_elemsOf|]. intros l h1 El E1. apply elemsOf_length in El.
  destruct l as [|a [|b [|c l]]].
  - apply g_ret. exact Logic.I.
  - apply g_allocLeaf_some. exact Logic.I.
  - apply g_allocLeaf_some. reflexivity.
  - destruct H as [H|[-> H]]; [cbn [length] in El; lia|]. destruct (_ || _)%bool.
    + apply g_ret. cbn. rewrite E1. auto.
    + eapply g_bind; [apply g_newBranchFromH|]. intros q dep2 h2 X2 Hq. apply g_ret. exact Hq.
Qed.

Lemma g_newCanonical k d sl dep h : maxTreeDepth <= d -> grows dep h (newCanonicalH grow k d sl) (fun r dep' os' => atO dep' os' r d).
Proof.
  intros Hd. unfold newCanonicalH. eapply g_bind; [apply (g_twig _ _ _ d); auto|]. intros p dep1 h1 X1 Hp. apply g_canonicalTwig. auto.
Qed.

Lemma appendTo_length fuel cap :
  (forall p (dest : list T) h l, length dest <= cap -> fst (appendToH fuel cap p dest h) = Ok (Some l) -> length l <= cap).
Proof.
  intros p dest h l Hd H. destruct (proj1 (costs_appendTo fuel cap) p dest h Hd) as [_ Hp].
  destruct (appendToH fuel cap p dest h) as [r h'] eqn:E1. cbn in H. subst r. destruct (Hp _ _ eq_refl) as [_ H1]. auto.
Qed.

Lemma g_canonicalBranch k p d dep h : at_ dep (h_objs h) p d -> grows dep h (canonicalBranchH grow k p) (fun r dep' os' => atO dep' os' r d).
Proof.
  intros Hp. unfold canonicalBranchH. apply g_still; [apply still_appendTo|]. intros [data|] h1 El E1.
  - apply appendTo_length in El; [|cbn; lia]. apply g_still; [apply still_newSlice|]. intros sl h2 Es E2. inversion Es; subst sl.
    unfold newCanonicalH. eapply g_bind; [apply (g_twig _ _ _ maxTreeDepth); auto|]. intros q dep3 h3 X3 _. apply g_canonicalTwig. left.
    unfold maxLeafLen in El. cbn. lia.
  - apply g_ret. cbn. rewrite E1. auto.
Qed.

(** ** Point operations *)

Ltac leafd dd := eapply g_bind; [apply (g_leaf _ _ _ dd); (exact Logic.I || reflexivity)|].

Lemma g_withH fuel : forall eq f p v d hs dep h, at_ dep (h_objs h) p d ->
  grows dep h (withH grow fuel eq f p v d hs) (fun r dep' os' => at_ dep' os' (fst r) d).
Proof.
  induction fuel as [|k IH]; intros eq f p v d hs dep h Hp; cbn [withH]; [apply g_fail; discriminate|].
  apply g_wok. intros Hw. apply g_load. intros [a|a b|r len|m da] Ho.
  - destruct (eq a v); (leafd d; intros q dep1 h1 X1 Hq; apply g_ret; exact Hq).
  - destruct (eq a v); [|destruct (eq b v)]; try (leafd d; intros q dep1 h1 X1 Hq; apply g_ret; exact Hq).
    apply g_still; [apply still_newSlice|]. intros sl h1 _ E1. eapply g_bind; [apply g_newBranchFromH|]. intros q dep2 h2 X2 Hq. apply g_ret. exact Hq.
  - destruct (at_twig _ _ _ _ _ _ Hw Hp Ho) as [Hd _]. apply g_still; [apply still_elemsOf|]. intros l h1 _ E1. destruct (indexOf _ l) as [i|].
    + apply g_still; [apply still_cloneSlice|]. intros sl h2 _ E2. eapply g_bind; [apply (g_twig _ _ _ d); auto|]. intros q dep3 h3 X3 Hq.
      apply g_still; [apply still_setSlot|]. intros _ h4 _ E4. apply g_ret. cbn [fst]. rewrite E4. exact Hq.
    + apply g_still; [apply still_append|]. intros sl h2 _ E2. eapply g_bind; [apply g_newCanonical; exact Hd|].
      intros [q|] dep3 h3 X3 Hq; [apply g_ret; exact Hq|apply g_fail; discriminate].
  - destruct (at_branch _ _ _ _ _ _ Hw Hp Ho) as (Hd & Hch & Hdep). destruct (childP da (h_hash hs)) as [c|] eqn:Ec.
    + eapply g_bind; [apply IH; eapply atAll_child; eauto|]. intros [x2 mt] dep1 h1 X1 Hx. cbn [fst] in Hx. destruct (x2 =? c).
      * apply g_ret. eapply at_ext; eauto.
      * eapply g_bind; [apply (g_branch _ _ _ d); [auto|]|].
        -- cbn [setChildP snd]. apply atAll_set; [eapply atAll_ext; eauto|exact Hx].
        -- intros q dep2 h2 X2 Hq. apply g_ret. exact Hq.
    + leafd (S d). intros l dep1 h1 X1 Hl. eapply g_bind; [apply (g_branch _ _ _ d); [auto|]|].
      * cbn [setChildP snd]. apply atAll_set; [eapply atAll_ext; eauto|exact Hl].
      * intros q dep2 h2 X2 Hq. apply g_ret. exact Hq.
Qed.

Lemma setChildP_snd pk i o : snd (setChildP pk i o) = set_nth (snd pk) i o.
Proof. destruct o; reflexivity. Qed.

Lemma g_withoutH fuel : forall p v d hs dep h, at_ dep (h_objs h) p d ->
  grows dep h (withoutH grow fuel p v d hs) (fun r dep' os' => atO dep' os' (fst r) d).
Proof.
  induction fuel as [|k IH]; intros p v d hs dep h Hp; cbn [withoutH]; [apply g_fail; discriminate|].
  apply g_wok. intros Hw. apply g_load. intros [a|a b|r len|m da] Ho.
  - destruct (veq a v); apply g_ret; [exact Logic.I|exact Hp].
  - destruct (veq a v); [|destruct (veq b v)]; try (leafd d; intros q dep1 h1 X1 Hq; apply g_ret; exact Hq). apply g_ret. exact Hp.
  - destruct (at_twig _ _ _ _ _ _ Hw Hp Ho) as [Hd _]. apply g_still; [apply still_elemsOf|]. intros l h1 _ E1.
    destruct (indexOf _ l) as [i|]; [|apply g_ret; cbn [fst atO]; rewrite E1; exact Hp].
    apply g_still; [apply still_cloneSlice|]. intros sl h2 _ E2. eapply g_bind; [apply (g_twig _ _ _ d); auto|]. intros q dep3 h3 X3 Hq.
    apply g_still; [destruct (i =? snd sl); [apply still_ret|apply still_setSlot]|]. intros _ h4 _ E4.
    eapply g_bind; [apply (g_canonicalTwig _ _ d); right; split; auto; rewrite E4; exact Hq|]. intros o dep5 h5 X5 H5. apply g_ret. exact H5.
  - destruct (at_branch _ _ _ _ _ _ Hw Hp Ho) as (Hd & Hch & Hdep). destruct (childP da (h_hash hs)) as [c|] eqn:Ec; [|apply g_ret; exact Hp].
    eapply g_bind; [apply IH; eapply atAll_child; eauto|]. intros [x2 mt] dep1 h1 X1 Hx. cbn [fst] in Hx. destruct (ptr_eqb x2 (Some c)).
    + apply g_ret. eapply at_ext; eauto.
    + eapply g_bind; [apply (g_branch _ _ _ d); [auto|]|].
      * rewrite setChildP_snd. apply atAll_set; [eapply atAll_ext; eauto|exact Hx].
      * intros q dep2 h2 X2 Hq. eapply g_bind; [apply g_canonicalBranch; exact Hq|]. intros o dep3 h3 X3 H3. apply g_ret. exact H3.
Qed.

Lemma g_removeH fuel : forall p v d hs dep h, at_ dep (h_objs h) p d ->
  grows dep h (removeH grow fuel p v d hs) (fun r dep' os' => atO dep' os' (fst r) d).
Proof.
  induction fuel as [|k IH]; intros p v d hs dep h Hp; cbn [removeH]; [apply g_fail; discriminate|].
  apply g_wok. intros Hw. apply g_load. intros [a|a b|r len|m da] Ho.
  - destruct (veq a v); apply g_ret; [exact Logic.I|exact Hp].
  - destruct (veq a v); [|destruct (veq b v)]; try (leafd d; intros q dep1 h1 X1 Hq; apply g_ret; exact Hq). apply g_ret. exact Hp.
  - destruct (at_twig _ _ _ _ _ _ Hw Hp Ho) as [Hd Hdep]. apply g_still; [apply still_elemsOf|]. intros l h1 _ E1.
    destruct (indexOf _ l) as [i|]; [|apply g_ret; cbn [fst atO]; rewrite E1; exact Hp]. cbn zeta.
    destruct (len - 1 =? 0); [apply g_ret; exact Logic.I|].
    apply g_still; [destruct (i <? len - 1); [apply still_setSlot|apply still_ret]|]. intros _ h2 _ E2.
    apply g_still; [apply still_loadArr|]. intros ar h3 _ E3. apply g_still; [apply still_storeArr|]. intros _ h4 _ E4.
    eapply g_bind; [apply (g_store _ _ _ _ d); [rewrite E4, E3, E2, E1; intros Hl; destruct (notLeaf_twig _ _ _ _ Ho Hl)|intros []|auto|exact Hd]|].
    intros _ dep5 h5 X5 _. eapply g_bind; [apply (g_canonicalTwig _ _ d); right; split; auto|].
    + eapply at_ext; [exact X5|]. rewrite E4, E3, E2, E1. exact Hp.
    + intros o dep6 h6 X6 H6. apply g_ret. exact H6.
  - destruct (at_branch _ _ _ _ _ _ Hw Hp Ho) as (Hd & Hch & Hdep). destruct (childP da (h_hash hs)) as [c|] eqn:Ec; [|apply g_ret; exact Hp].
    eapply g_bind; [apply IH; eapply atAll_child; eauto|]. intros [x2 mt] dep1 h1 X1 Hx. cbn [fst] in Hx. cbn zeta.
    eapply g_bind; [apply (g_branch _ _ _ d); [auto|]|].
    + cbn [snd]. apply atAll_set; [eapply atAll_ext; eauto|exact Hx].
    + intros q dep2 h2 X2 Hq.
      assert (Hs : still (match x2 with Some x => o' <~ load x ;; ret (Some o') | None => ret None end)).
      { destruct x2; [apply still_bind; [apply still_load|intros; apply still_ret]|apply still_ret]. }
      apply g_still; [exact Hs|]. intros on h3 _ E3.
      assert (Hrest : grows dep2 h3 (d0 <~ appendToH walkFuel maxLeafLen q [];;
                     match d0 with
                     | Some es => l <~ newLeafH es;; ret (Some l, mt)
                     | None => ret (Some q, mt)
                     end) (fun r dep' os' => atO dep' os' (fst r) d)).
      { apply g_still; [apply still_appendTo|]. intros [es|] h4 _ E4.
        - unfold newLeafH. eapply g_bind with (post := fun q dep' os' => at_ dep' os' q d).
          + destruct es as [|a [|b [|]]]; try (apply g_fail; discriminate); apply g_leaf; (exact Logic.I || reflexivity).
          + intros l dep5 h5 X5 H5. apply g_ret. exact H5.
        - apply g_ret. cbn [fst atO]. rewrite E4, E3. exact Hq. }
      destruct on as [[| | |]|]; auto. apply g_ret. cbn [fst atO]. rewrite E3. exact Hq.
Qed.

(** ** Operations on two nodes *)

Lemma g_parallel_loop (f : nat -> M (option nat * Z)) d (Inv : list nat -> list obj -> Prop) order :
  (forall dep os dep' os', ext dep os dep' os' -> Inv dep os -> Inv dep' os') ->
  (forall i dep h, Inv dep (h_objs h) -> grows dep h (f i) (fun r dep' os' => atO dep' os' (fst r) d)) ->
  forall matches data dep h, Inv dep (h_objs h) -> atAll dep (h_objs h) data d ->
  grows dep h (parallelH_loop f order matches data) (fun r dep' os' => atAll dep' os' (fst r) d).
Proof.
  intros Hm Hf. induction order as [|i order IH]; intros matches data dep h HI Hd; cbn [parallelH_loop]; [apply g_ret; exact Hd|].
  eapply g_bind; [apply Hf; auto|]. intros [r x] dep1 h1 X1 Hr. apply IH; [eapply Hm; eauto|]. apply atAll_set; [eapply atAll_ext; eauto|exact Hr].
Qed.
Lemma g_parallel g dp mask (f : nat -> M (option nat * Z)) d (Inv : list nat -> list obj -> Prop) dep h :
  (forall dep os dep' os', ext dep os dep' os' -> Inv dep os -> Inv dep' os') ->
  (forall i dep h, Inv dep (h_objs h) -> grows dep h (f i) (fun r dep' os' => atO dep' os' (fst r) d)) ->
  Inv dep (h_objs h) -> grows dep h (parallelH g dp mask f) (fun r dep' os' => atAll dep' os' (fst r) d).
Proof. intros Hm Hf HI. unfold parallelH. eapply g_parallel_loop; eauto. apply atAll_empty. Qed.

Lemma g_combineLeaf1 args a b d dep h : grows dep h (combineLeaf1H (T := T) args a b) (fun r dep' os' => at_ dep' os' (fst r) d).
Proof. unfold combineLeaf1H. destruct (c_eq args a b); (leafd d; intros q dep1 h1 X1 Hq; apply g_ret; exact Hq). Qed.
Lemma g_split k d l (x : Z) dep h : grows dep h (sl <~ newSlice l ;; q <~ newBranchFromH grow k d sl ;; ret (q, x)) (fun r dep' os' => at_ dep' os' (fst r) d).
Proof.
  apply g_still; [apply still_newSlice|]. intros sl h1 _ E1. eapply g_bind; [apply g_newBranchFromH|]. intros q dep2 h2 X2 Hq. apply g_ret. exact Hq.
Qed.
Lemma g_combineLeaf21 k args d a b c dep h : grows dep h (combineLeaf21H grow k args d a b c) (fun r dep' os' => at_ dep' os' (fst r) d).
Proof.
  unfold combineLeaf21H. destruct (c_eq args a c); [|destruct (c_eq args b c)]; try (leafd d; intros q dep1 h1 X1 Hq; apply g_ret; exact Hq).
  apply g_split.
Qed.
Lemma g_combineLeaf2_step k args d a b x y r dep h : combineLeaf2H_step grow k args d a b x y = Some r ->
  grows dep h r (fun r dep' os' => at_ dep' os' (fst r) d).
Proof.
  unfold combineLeaf2H_step. destruct (c_eq args a x), (c_eq args b y); intros E1; inversion E1; subst; try apply g_split.
  leafd d. intros q dep1 h1 X1 Hq. apply g_ret. exact Hq.
Qed.
Lemma g_combineLeaf2 k args d a b x y dep h : grows dep h (combineLeaf2H grow k args d a b x y) (fun r dep' os' => at_ dep' os' (fst r) d).
Proof.
  unfold combineLeaf2H. destruct (combineLeaf2H_step grow k args d a b x y) eqn:E1; [eapply g_combineLeaf2_step; eauto|].
  destruct (combineLeaf2H_step grow k args d a b y x) eqn:E2; [eapply g_combineLeaf2_step; eauto|]. apply g_split.
Qed.

Lemma g_dropped k args d l rest dep h : maxTreeDepth <= d -> grows dep h (combineTwigH_dropped grow k args d l rest) (fun _ _ _ => True).
Proof.
  intros Hd. unfold combineTwigH_dropped. eapply g_bind; [apply (g_branch _ _ _ (S maxTreeDepth)); [lia|apply atAll_empty]|].
  intros b dep1 h1 X1 Hb. apply (g_foldMM _ (fun dep os => at_ dep os b (S maxTreeDepth))); [intros; eapply at_ext; eauto| |exact Hb].
  intros s a dep2 h2 H2. eapply g_bind; [apply (g_addH _ _ _ _ _ d (S maxTreeDepth)); [right; lia|exact H2]|].
  intros [q x] dep3 h3 X3 _. apply g_ret. exact Logic.I.
Qed.
Lemma g_scan k args d nd : maxTreeDepth <= d -> forall sl cloned m dep h,
  grows dep h (combineTwigH_scan grow k args d sl cloned nd m) (fun _ _ _ => True).
Proof.
  intros Hd. induction nd as [|e nd IH]; intros sl cloned m dep h; cbn [combineTwigH_scan]; [apply g_ret; exact Logic.I|].
  apply g_still; [apply still_elemsOf|]. intros l h1 _ E1. destruct (indexOf _ l) as [j|].
  - apply g_still; [destruct cloned; [apply still_ret|apply still_cloneSlice]|]. intros sl' h2 _ E2.
    apply g_still; [apply still_setSlot|]. intros _ h3 _ E3. apply IH.
  - destruct (snd sl <? maxLeafLen).
    + apply g_still; [apply still_append|]. intros sl' h2 _ E2. apply IH.
    + eapply g_bind; [apply g_dropped; exact Hd|]. intros x dep2 h2 X2 _. apply IH.
Qed.
Lemma g_combineTwig k args d sl sl2 dep h : maxTreeDepth <= d ->
  grows dep h (combineTwigH grow k args d sl sl2) (fun r dep' os' => at_ dep' os' (fst r) d).
Proof.
  intros Hd. unfold combineTwigH. apply g_still; [apply still_elemsOf|]. intros nd h1 _ E1. eapply g_bind; [apply g_scan; exact Hd|].
  intros [sl' m] dep2 h2 X2 _. destruct (maxLeafLen <? snd sl'); [apply g_fail; discriminate|].
  eapply g_bind; [apply g_newCanonical; exact Hd|]. intros [q|] dep3 h3 X3 Hq; [apply g_ret; exact Hq|apply g_fail; discriminate].
Qed.
Lemma g_with2 k args p a b d dep h : at_ dep (h_objs h) p d -> grows dep h (with2H grow k args p a b d) (fun r dep' os' => at_ dep' os' (fst r) d).
Proof.
  intros Hp. unfold with2H. eapply g_bind; [apply g_withH; exact Hp|]. intros [q x] dep1 h1 X1 Hq. cbn [fst] in Hq.
  eapply g_bind; [apply g_withH; exact Hq|]. intros [q2 x2] dep2 h2 X2 Hq2. apply g_ret. exact Hq2.
Qed.

Lemma g_combineH fuel : forall args p p2 d dep h, at_ dep (h_objs h) p d -> at_ dep (h_objs h) p2 d ->
  grows dep h (combineH grow fuel args p p2 d) (fun r dep' os' => at_ dep' os' (fst r) d).
Proof.
  induction fuel as [|k IH]; intros args p p2 d dep h Hp Hp2; cbn [combineH]; [apply g_fail; discriminate|].
  apply g_wok. intros Hw. apply g_load. intros o Ho. apply g_load. intros o2 Ho2.
  destruct o as [a|a b|r len|m da], o2 as [a2|a2 b2|r2 len2|m2 da2]; try (apply g_fail; discriminate).
  - apply g_combineLeaf1.
  - apply g_combineLeaf21.
  - apply g_withH; exact Hp2.
  - apply g_combineLeaf21.
  - apply g_combineLeaf2.
  - apply g_with2; exact Hp2.
  - destruct (at_twig _ _ _ _ _ _ Hw Hp Ho) as [Hd _]. apply g_combineTwig. exact Hd.
  - apply g_withH; exact Hp.
  - apply g_with2; exact Hp.
  - destruct (at_branch _ _ _ _ _ _ Hw Hp Ho) as (Hd & Hch & _). destruct (at_branch _ _ _ _ _ _ Hw Hp2 Ho2) as (_ & Hch2 & _).
    eapply g_bind.
    + apply (g_parallel _ _ _ _ (S d) (fun dep os => atAll dep os da (S d) /\ atAll dep os da2 (S d))).
      * intros ? ? ? ? X [A1 A2]. split; eapply atAll_ext; eauto.
      * intros i dep1 h1 [A1 A2]. pose proof (atAll_childO _ _ _ i _ A1) as C1. pose proof (atAll_childO _ _ _ i _ A2) as C2.
        destruct (childP da i) as [x|]; [|apply g_ret; exact C2]. destruct (childP da2 i) as [y|]; [|apply g_ret; exact C1].
        eapply g_bind; [apply IH; [exact C1|exact C2]|]. intros [q x0] dep2 h2 X2 Hq. apply g_ret. exact Hq.
      * auto.
    + intros [data mt] dep1 h1 X1 Hdata. eapply g_bind; [apply (g_branch _ _ _ d); [auto|exact Hdata]|].
      intros q dep2 h2 X2 Hq. apply g_ret. exact Hq.
Qed.

Lemma g_optLeaf dep h (o : obj) (x : Z) d : leafObj true o -> grows dep h (q <~ alloc o ;; ret (Some q, x)) (fun r dep' os' => atO dep' os' (fst r) d).
Proof. intros Ho. eapply g_bind; [apply (g_leaf _ _ _ d); auto|]. intros q dep1 h1 X1 Hq. apply g_ret. exact Hq. Qed.

Lemma g_without2 k p a b d dep h : at_ dep (h_objs h) p d ->
  grows dep h ('(o1, m1) <~ withoutH grow k p a d (newHasher a d) ;;
               match o1 with
               | None => fail Panic
               | Some q => '(o2, m2) <~ withoutH grow k q b d (newHasher b d) ;; ret (o2, (m1 + m2)%Z)
               end) (fun r dep' os' => atO dep' os' (fst r) d).
Proof.
  intros Hp. eapply g_bind; [apply g_withoutH; exact Hp|]. intros [[q|] x] dep1 h1 X1 Hq; [|apply g_fail; discriminate]. cbn [fst atO] in Hq.
  eapply g_bind; [apply g_withoutH; exact Hq|]. intros [o2 x2] dep2 h2 X2 Hq2. apply g_ret. exact Hq2.
Qed.

(** A branch is made from the children found and brought to canonical form. *)
Lemma g_packer k d data (x : Z) dep h : d <> maxTreeDepth -> atAll dep (h_objs h) data (S d) ->
  grows dep h (q <~ newBranchH (updateMaskP data, data) ;; o <~ canonicalBranchH grow k q ;; ret (o, x)) (fun r dep' os' => atO dep' os' (fst r) d).
Proof.
  intros Hd Hdata. eapply g_bind; [apply (g_branch _ _ _ d); [auto|exact Hdata]|]. intros q dep1 h1 X1 Hq.
  eapply g_bind; [apply g_canonicalBranch; exact Hq|]. intros o dep2 h2 X2 H2. apply g_ret. exact H2.
Qed.

Lemma g_differenceH fuel : forall g p p2 d dep h, at_ dep (h_objs h) p d -> at_ dep (h_objs h) p2 d ->
  grows dep h (differenceH grow fuel g p p2 d) (fun r dep' os' => atO dep' os' (fst r) d).
Proof.
  induction fuel as [|k IH]; intros g p p2 d dep h Hp Hp2; cbn [differenceH]; [apply g_fail; discriminate|].
  apply g_wok. intros Hw. apply g_load. intros [a|a b|r len|m da] Ho.
  - apply g_still; [apply still_has_at|]. intros [|] h1 _ E1; apply g_ret; [exact Logic.I|]. cbn. rewrite E1. exact Hp.
  - apply g_still; [apply still_has_at|]. intros x h1 _ E1. apply g_still; [apply still_has_at|]. intros y h2 _ E2. destruct x, y.
    + apply g_ret. exact Logic.I.
    + apply g_optLeaf. exact Logic.I.
    + apply g_optLeaf. exact Logic.I.
    + apply g_ret. cbn. rewrite E2, E1. exact Hp.
  - destruct (at_twig _ _ _ _ _ _ Hw Hp Ho) as [Hd _]. apply g_still; [apply still_elemsOf|]. intros l h1 _ E1.
    apply g_still; [apply still_newSlice|]. intros sl0 h2 _ E2. apply g_still; [apply still_filterGet|]. intros [sl x] h3 _ E3.
    eapply g_bind; [apply g_newCanonical; exact Hd|]. intros o dep4 h4 X4 H4. apply g_ret. exact H4.
  - destruct (at_branch _ _ _ _ _ _ Hw Hp Ho) as (Hd & Hch & _). apply g_load. intros [a2|a2 b2|r2 len2|m2 da2] Ho2.
    + apply g_withoutH. exact Hp.
    + apply g_without2. exact Hp.
    + apply g_fail. discriminate.
    + destruct (at_branch _ _ _ _ _ _ Hw Hp2 Ho2) as (_ & Hch2 & _). eapply g_bind.
      * apply (g_parallel _ _ _ _ (S d) (fun dep os => atAll dep os da (S d) /\ atAll dep os da2 (S d))).
        -- intros ? ? ? ? X [A1 A2]. split; eapply atAll_ext; eauto.
        -- intros i dep1 h1 [A1 A2]. pose proof (atAll_childO _ _ _ i _ A1) as C1. pose proof (atAll_childO _ _ _ i _ A2) as C2.
           destruct (childP da i) as [x|], (childP da2 i) as [y|]; try (apply g_fail; discriminate); try (apply g_ret; assumption).
           apply IH; [exact C1|exact C2].
        -- auto.
      * intros [data mt] dep1 h1 X1 Hdata. apply g_packer; [exact Hd|exact Hdata].
Qed.

Lemma g_intersectLeaf1 k p a p2 dp d dep h : at_ dep (h_objs h) p d ->
  grows dep h (intersectLeaf1H k p a p2 dp) (fun r dep' os' => atO dep' os' (fst r) d).
Proof.
  intros Hp. apply g_still; [apply still_has_at|]. intros [|] h1 _ E1; apply g_ret; [|exact Logic.I]. cbn. rewrite E1. exact Hp.
Qed.
Lemma g_intersectLeaf2 k p a b p2 dp d dep h : at_ dep (h_objs h) p d ->
  grows dep h (intersectLeaf2H k p a b p2 dp) (fun r dep' os' => atO dep' os' (fst r) d).
Proof.
  intros Hp. apply g_still; [apply still_has_at|]. intros x h1 _ E1. apply g_still; [apply still_has_at|]. intros y h2 _ E2. destruct x, y.
  - apply g_ret. cbn. rewrite E2, E1. exact Hp.
  - apply g_optLeaf. exact Logic.I.
  - apply g_optLeaf. exact Logic.I.
  - apply g_ret. exact Logic.I.
Qed.

Lemma g_intersectionH fuel : forall g p p2 d dep h, at_ dep (h_objs h) p d -> at_ dep (h_objs h) p2 d ->
  grows dep h (intersectionH grow fuel g p p2 d) (fun r dep' os' => atO dep' os' (fst r) d).
Proof.
  induction fuel as [|k IH]; intros g p p2 d dep h Hp Hp2; cbn [intersectionH]; [apply g_fail; discriminate|].
  apply g_wok. intros Hw. apply g_load. intros [a|a b|r len|m da] Ho.
  - apply g_intersectLeaf1. exact Hp.
  - apply g_intersectLeaf2. exact Hp.
  - destruct (at_twig _ _ _ _ _ _ Hw Hp Ho) as [Hd _]. apply g_still; [apply still_elemsOf|]. intros l h1 _ E1.
    apply g_still; [apply still_newSlice|]. intros sl0 h2 _ E2. apply g_still; [apply still_filterGet|]. intros [sl x] h3 _ E3.
    eapply g_bind; [apply g_newCanonical; exact Hd|]. intros o dep4 h4 X4 H4. apply g_ret. exact H4.
  - destruct (at_branch _ _ _ _ _ _ Hw Hp Ho) as (Hd & Hch & _). apply g_load. intros [a2|a2 b2|r2 len2|m2 da2] Ho2.
    + apply g_intersectLeaf1. exact Hp2.
    + apply g_intersectLeaf2. exact Hp2.
    + apply g_fail. discriminate.
    + destruct (at_branch _ _ _ _ _ _ Hw Hp2 Ho2) as (_ & Hch2 & _). eapply g_bind.
      * apply (g_parallel _ _ _ _ (S d) (fun dep os => atAll dep os da (S d) /\ atAll dep os da2 (S d))).
        -- intros ? ? ? ? X [A1 A2]. split; eapply atAll_ext; eauto.
        -- intros i dep1 h1 [A1 A2]. pose proof (atAll_childO _ _ _ i _ A1) as C1. pose proof (atAll_childO _ _ _ i _ A2) as C2.
           destruct (childP da i) as [x|], (childP da2 i) as [y|]; try (apply g_fail; discriminate).
           apply IH; [exact C1|exact C2].
        -- auto.
      * intros [data mt] dep1 h1 X1 Hdata. apply g_packer; [exact Hd|exact Hdata].
Qed.

Lemma g_whereH fuel : forall g pred p d dep h, at_ dep (h_objs h) p d ->
  grows dep h (whereH grow fuel g pred p d) (fun r dep' os' => atO dep' os' (fst r) d).
Proof.
  induction fuel as [|k IH]; intros g pred p d dep h Hp; cbn [whereH]; [apply g_fail; discriminate|].
  apply g_wok. intros Hw. apply g_load. intros [a|a b|r len|m da] Ho.
  - destruct (pred a); apply g_ret; [exact Hp|exact Logic.I].
  - destruct (pred a), (pred b); try (apply g_optLeaf; exact Logic.I); apply g_ret; [exact Hp|exact Logic.I].
  - destruct (at_twig _ _ _ _ _ _ Hw Hp Ho) as [Hd _]. apply g_still; [apply still_elemsOf|]. intros l h1 _ E1.
    apply g_still; [apply still_newSlice|]. intros sl0 h2 _ E2. apply g_still; [apply still_filterPred|]. intros [sl x] h3 _ E3.
    eapply g_bind; [apply g_newCanonical; exact Hd|]. intros o dep4 h4 X4 H4. apply g_ret. exact H4.
  - destruct (at_branch _ _ _ _ _ _ Hw Hp Ho) as (Hd & Hch & _). eapply g_bind.
    + apply (g_parallel _ _ _ _ (S d) (fun dep os => atAll dep os da (S d))).
      * intros ? ? ? ? X A1. eapply atAll_ext; eauto.
      * intros i dep1 h1 A1. pose proof (atAll_childO _ _ _ i _ A1) as C1.
        destruct (childP da i) as [x|]; [|apply g_fail; discriminate]. apply IH; exact C1.
      * auto.
    + intros [data mt] dep1 h1 X1 Hdata. destruct (_ && _)%bool; [apply g_ret; cbn [fst atO]; eapply at_ext; eauto|].
      apply g_packer; [exact Hd|exact Hdata].
Qed.

(** ** Programs *)

Definition rootAt (dep : list nat) (os : list obj) (t : ptree) : Prop := atO dep os (pt_root t) 0.
Definition levels (st : state (T := T)) : Prop := exists dep, wok dep (h_objs (st_heap st)) /\
  Forall (rootAt dep (h_objs (st_heap st))) (st_sets st) /\ Forall (rootAt dep (h_objs (st_heap st))) (st_builders st).

Definition growsT (m : M ptree) (dep : list nat) (h : heap) : Prop := grows dep h m (fun t dep' os' => rootAt dep' os' t).

Lemma Forall_rootAt_ext dep os dep' os' l : ext dep os dep' os' -> Forall (rootAt dep os) l -> Forall (rootAt dep' os') l.
Proof. intros X. apply Forall_impl. intros t. apply atO_ext. exact X. Qed.

Lemma levels_makeSet st m : levels st -> (forall dep, Forall (rootAt dep (h_objs (st_heap st))) (st_sets st) -> growsT m dep (st_heap st)) ->
  levels (makeSet st m).
Proof.
  intros (dep & Hw & Hs & Hb) Hm. destruct (Hm dep Hs Hw) as (dep' & W & X & P). unfold makeSet, levels.
  destruct (m (st_heap st)) as [[t| |] h]; cbn [fst snd st_heap st_sets st_builders] in *; exists dep'; (split; [exact W|]);
    (split; [|eapply Forall_rootAt_ext; eauto]); try (eapply Forall_rootAt_ext; [exact X|assumption]).
  apply Forall_app. split; [eapply Forall_rootAt_ext; eauto|]. constructor; [auto|constructor].
Qed.
Lemma Forall_set_nth {A} (P : A -> Prop) l i x : Forall P l -> P x -> Forall P (set_nth l i x).
Proof. intros H Hx. revert i. induction H as [|a l Ha Hl IH]; intros [|i]; cbn; constructor; auto. Qed.
Lemma levels_changeBuilder st b m : levels st -> (forall dep, Forall (rootAt dep (h_objs (st_heap st))) (st_builders st) -> growsT m dep (st_heap st)) ->
  levels (changeBuilder st b m).
Proof.
  intros (dep & Hw & Hs & Hb) Hm. destruct (Hm dep Hb Hw) as (dep' & W & X & P). unfold changeBuilder, levels.
  destruct (m (st_heap st)) as [[t| |] h]; cbn [fst snd st_heap st_sets st_builders] in *; exists dep'; (split; [exact W|]);
    (split; [eapply Forall_rootAt_ext; eauto|]); try (eapply Forall_rootAt_ext; [exact X|assumption]).
  apply Forall_set_nth; [eapply Forall_rootAt_ext; eauto|auto].
Qed.

Lemma rootAt_nth dep os l i t : Forall (rootAt dep os) l -> nth_error l i = Some t -> rootAt dep os t.
Proof. intros H Hi. rewrite Forall_forall in H. apply H. eapply nth_error_In; eauto. Qed.

Lemma g_tH_with t v dep h : rootAt dep (h_objs h) t -> growsT (tH_with grow t v) dep h.
Proof.
  unfold rootAt, growsT, tH_with. destruct (pt_root t) as [p|]; cbn [atO]; intros Hp.
  - eapply g_bind; [apply g_withH; exact Hp|]. intros [q x] dep1 h1 X1 Hq. apply g_ret. exact Hq.
  - leafd 0. intros q dep1 h1 X1 Hq. apply g_ret. exact Hq.
Qed.
Lemma g_tH_without t v dep h : rootAt dep (h_objs h) t -> growsT (tH_without grow t v) dep h.
Proof.
  unfold growsT, tH_without. intros Ht. pose proof Ht as Hp. unfold rootAt in Hp. destruct (pt_root t) as [p|]; cbn [atO] in Hp; [|apply g_ret; exact Ht].
  eapply g_bind; [apply g_withoutH; exact Hp|]. intros [q x] dep1 h1 X1 Hq. apply g_ret. exact Hq.
Qed.
Lemma g_tH_combine args t u dep h : rootAt dep (h_objs h) t -> rootAt dep (h_objs h) u -> growsT (tH_combine grow args t u) dep h.
Proof.
  unfold growsT, tH_combine. intros Ht Hu. pose proof Ht as Hp. pose proof Hu as Hq. unfold rootAt in Hp, Hq.
  destruct (pt_root t) as [p|]; [|apply g_ret; exact Hu]. destruct (pt_root u) as [q|]; [|apply g_ret; exact Ht].
  eapply g_bind; [apply g_combineH; [exact Hp|exact Hq]|]. intros [r x] dep1 h1 X1 Hr. apply g_ret. exact Hr.
Qed.
Lemma g_tH_difference g t u dep h : rootAt dep (h_objs h) t -> rootAt dep (h_objs h) u -> growsT (tH_difference grow g t u) dep h.
Proof.
  unfold growsT, tH_difference. intros Ht Hu. pose proof Ht as Hp. pose proof Hu as Hq. unfold rootAt in Hp, Hq.
  destruct (pt_root t) as [p|]; [|apply g_ret; exact Ht]. destruct (pt_root u) as [q|]; [|apply g_ret; exact Ht].
  eapply g_bind; [apply g_differenceH; [exact Hp|exact Hq]|]. intros [r x] dep1 h1 X1 Hr. apply g_ret. exact Hr.
Qed.
Lemma g_tH_intersection g t u dep h : rootAt dep (h_objs h) t -> rootAt dep (h_objs h) u -> growsT (tH_intersection grow g t u) dep h.
Proof.
  unfold growsT, tH_intersection. intros Ht Hu. pose proof Ht as Hp. pose proof Hu as Hq. unfold rootAt in Hp, Hq.
  destruct (pt_root t) as [p|]; [|apply g_ret; exact Logic.I]. destruct (pt_root u) as [q|]; [|apply g_ret; exact Logic.I].
  destruct (_ <? _)%Z; (eapply g_bind; [apply g_intersectionH; assumption|]; intros [r x] dep1 h1 X1 Hr; apply g_ret; exact Hr).
Qed.
Lemma g_tH_where g pred t dep h : rootAt dep (h_objs h) t -> growsT (tH_where grow g pred t) dep h.
Proof.
  unfold growsT, tH_where. intros Ht. pose proof Ht as Hp. unfold rootAt in Hp. destruct (pt_root t) as [p|]; [|apply g_ret; exact Ht].
  eapply g_bind; [apply g_whereH; exact Hp|]. intros [q x] dep1 h1 X1 Hq. apply g_ret. exact Hq.
Qed.
Lemma g_bH_add t v dep h : rootAt dep (h_objs h) t -> growsT (bH_add grow t v) dep h.
Proof.
  unfold rootAt, growsT, bH_add. destruct (pt_root t) as [p|]; cbn [atO]; intros Hp.
  - eapply g_bind; [apply (g_addH _ _ _ _ _ 0 0); [apply lv_refl|exact Hp]|]. intros [q x] dep1 h1 X1 Hq. apply g_ret. exact Hq.
  - leafd 0. intros q dep1 h1 X1 Hq. apply g_ret. exact Hq.
Qed.
Lemma g_bH_remove t v dep h : rootAt dep (h_objs h) t -> growsT (bH_remove grow t v) dep h.
Proof.
  unfold growsT, bH_remove. intros Ht. pose proof Ht as Hp. unfold rootAt in Hp. destruct (pt_root t) as [p|]; [|apply g_ret; exact Ht].
  eapply g_bind; [apply g_removeH; exact Hp|]. intros [q x] dep1 h1 X1 Hq. apply g_ret. exact Hq.
Qed.

Lemma levels_step st c : levels st -> levels (step grow st c).
Proof.
  intros Hl. destruct c as [|b v|b v|b|s v|s v|f s u|s u|s u|pred s]; cbn [step].
  - destruct Hl as (dep & Hw & Hs & Hb). exists dep. cbn. split; auto. split; auto. apply Forall_app. split; auto. constructor; [exact Logic.I|constructor].
  - destruct (nth_error (st_builders st) b) as [t|] eqn:Eb; auto. apply levels_changeBuilder; auto. intros dep Hd. apply g_bH_add. eapply rootAt_nth; eauto.
  - destruct (nth_error (st_builders st) b) as [t|] eqn:Eb; auto. apply levels_changeBuilder; auto. intros dep Hd. apply g_bH_remove. eapply rootAt_nth; eauto.
  - destruct (nth_error (st_builders st) b) as [t|] eqn:Eb; auto. destruct Hl as (dep & Hw & Hs & Hb). exists dep. cbn. split; auto. split.
    + apply Forall_app. split; auto. constructor; [eapply rootAt_nth; eauto|constructor].
    + apply Forall_set_nth; auto. exact Logic.I.
  - destruct (nth_error (st_sets st) s) as [t|] eqn:Et; auto. apply levels_makeSet; auto. intros dep Hd. apply g_tH_with. eapply rootAt_nth; eauto.
  - destruct (nth_error (st_sets st) s) as [t|] eqn:Et; auto. apply levels_makeSet; auto. intros dep Hd. apply g_tH_without. eapply rootAt_nth; eauto.
  - destruct (nth_error (st_sets st) s) as [t|] eqn:Et; auto. destruct (nth_error (st_sets st) u) as [t'|] eqn:Eu; auto.
    apply levels_makeSet; auto. intros dep Hd. apply g_tH_combine; eapply rootAt_nth; eauto.
  - destruct (nth_error (st_sets st) s) as [t|] eqn:Et; auto. destruct (nth_error (st_sets st) u) as [t'|] eqn:Eu; auto.
    apply levels_makeSet; auto. intros dep Hd. apply g_tH_difference; eapply rootAt_nth; eauto.
  - destruct (nth_error (st_sets st) s) as [t|] eqn:Et; auto. destruct (nth_error (st_sets st) u) as [t'|] eqn:Eu; auto.
    apply levels_makeSet; auto. intros dep Hd. apply g_tH_intersection; eapply rootAt_nth; eauto.
  - destruct (nth_error (st_sets st) s) as [t|] eqn:Et; auto. apply levels_makeSet; auto. intros dep Hd. apply g_tH_where. eapply rootAt_nth; eauto.
Qed.
Lemma levels_run cs : forall st, levels st -> levels (run grow cs st).
Proof. induction cs as [|c cs IH]; intros st H; cbn; auto. apply IH. apply levels_step. auto. Qed.
Lemma levels_initial : levels initial.
Proof.
  exists []. cbn. split; [|auto]. split; auto. intros p o d H. destruct p; discriminate.
Qed.

(** Reading the levels back: at most [maxTreeDepth] branches on a path, twigs only at its end. *)
Lemma at_deep j : forall dep (h : heap) p d, wok dep (h_objs h) -> at_ dep (h_objs h) p d -> d <= maxTreeDepth -> maxTreeDepth <= d + j -> deep h p d.
Proof.
  assert (Hleaf : forall (h : heap) p d, leafAt (h_objs h) p -> deep h p d).
  { intros h p d ([a|a b|r len|m da] & Ho & Hl); cbn in Hl; try contradiction; [eapply deep_leaf1; eauto|eapply deep_leaf2; eauto]. }
  induction j as [|j IH]; intros dep h p d Hw Hp Hd Hj; (destruct Hp as [Hp|Hp]; [apply Hleaf; auto|]); pose proof Hw as [HL Hok];
    (destruct (nth_error (h_objs h) p) as [[a|a b|r len|m da]|] eqn:Ho;
      [eapply deep_leaf1; eauto|eapply deep_leaf2; eauto|eapply deep_twig; eauto; exact (Hok p _ d Ho Hp)| |
       apply nth_error_None in Ho; apply nth_error_Some_lt in Hp; lia]);
    destruct (Hok p _ d Ho Hp) as [Hne Hch]; [lia|].
  eapply deep_branch; [exact Ho|lia|]. intros i c Hc. apply (IH dep); auto; [eapply atAll_child; eauto|lia|lia].
Qed.

Lemma levels_sets st i t p : levels st -> nth_error (st_sets st) i = Some t -> pt_root t = Some p -> deep (st_heap st) p 0.
Proof.
  intros (dep & Hw & Hs & _) Hi Hp. pose proof (rootAt_nth _ _ _ _ _ Hs Hi) as Ht. unfold rootAt in Ht. rewrite Hp in Ht.
  apply (at_deep maxTreeDepth dep); auto; lia.
Qed.
Lemma levels_builders st i t p : levels st -> nth_error (st_builders st) i = Some t -> pt_root t = Some p -> deep (st_heap st) p 0.
Proof.
  intros (dep & Hw & _ & Hs) Hi Hp. pose proof (rootAt_nth _ _ _ _ _ Hs Hi) as Ht. unfold rootAt in Ht. rewrite Hp in Ht.
  apply (at_deep maxTreeDepth dep); auto; lia.
Qed.

(** ** Costs of the calls *)

Lemma costs_tH_with t v h : (forall p, pt_root t = Some p -> deep h p 0) -> hsize (snd (tH_with grow t v h)) <= hsize h + (4 * maxTreeDepth + 3).
Proof.
  intros Ht. unfold tH_with. destruct (pt_root t) as [p|].
  - assert (H : costs h ('(r, m) <~ withH grow treeFuel veq (fun _ b => b) p v 0 (newHasher v 0);;
                  ret (mkPT (Some r) (pt_count t + 1 - m)%Z)) (4 * maxTreeDepth + 3) anyPost); [|apply H].
    eapply costs_bind with (n2 := 0); [apply (costs_withH grow); apply Ht; auto|lia|]. intros [q x] h1 _. apply costs_ret. exact Logic.I.
  - unfold bindM, alloc, ret, hsize. cbn. rewrite app_length. cbn. lia.
Qed.
Lemma costs_tH_without t v h : (forall p, pt_root t = Some p -> deep h p 0) -> hsize (snd (tH_without grow t v h)) <= hsize h + (4 * maxTreeDepth + 3).
Proof.
  intros Ht. unfold tH_without. destruct (pt_root t) as [p|]; [|cbn; lia].
  assert (H : costs h ('(o, m) <~ withoutH grow treeFuel p v 0 (newHasher v 0);;
                ret (mkPT o (pt_count t - m)%Z)) (4 * maxTreeDepth + 3) anyPost); [|apply H].
  eapply costs_bind with (n2 := 0); [apply (costs_withoutH grow); apply Ht; auto|lia|]. intros [q x] h1 _. apply costs_ret. exact Logic.I.
Qed.
Lemma costs_bH_add t v h : (forall p, pt_root t = Some p -> deep h p 0) -> hsize (snd (bH_add grow t v h)) <= hsize h + (4 * maxTreeDepth + 2).
Proof.
  intros Ht. unfold bH_add. destruct (pt_root t) as [p|].
  - assert (H : costs h ('(r, m) <~ addFastH grow treeFuel p v 0 (newHasher v 0);;
                  ret (mkPT (Some r) (pt_count t + (1 - m))%Z)) (4 * maxTreeDepth + 2) anyPost); [|apply H].
    eapply costs_bind with (n2 := 0); [apply (costs_addH grow); apply Ht; auto|lia|]. intros [q x] h1 _. apply costs_ret. exact Logic.I.
  - unfold bindM, alloc, ret, hsize. cbn. rewrite app_length. cbn. lia.
Qed.
Lemma costs_bH_remove t v h : (forall p, pt_root t = Some p -> deep h p 0) -> hsize (snd (bH_remove grow t v h)) <= hsize h + (2 * maxTreeDepth + 1).
Proof.
  intros Ht. unfold bH_remove. destruct (pt_root t) as [p|]; [|cbn; lia].
  assert (H : costs h ('(o, m) <~ removeH grow treeFuel p v 0 (newHasher v 0);;
                ret (mkPT o (pt_count t - m)%Z)) (2 * maxTreeDepth + 1) anyPost); [|apply H].
  eapply costs_bind with (n2 := 0); [apply (costs_removeH grow); apply Ht; auto|lia|]. intros [q x] h1 _. apply costs_ret. exact Logic.I.
Qed.

End Deep.
