(** * SpecVet: lemmas behind the property of the checks that vetting switches on (C56). *)
From Verif Require Import Base Bits Env EnvFacts Node NodeWf NodeAdd NodeUn Iter Tree TreeFacts SetApi SetFacts.
From Verif Require Import MapApi MapFacts Reach Vetting.
From Verif Require Import HeapModel HeapFrame HeapOwn HeapRep HeapSim HeapProg HeapProgSim HeapBuilders HeapQuiet SpecHeap SpecAlloc SpecReduce HeapReduce HeapClone.
Local Open Scope Z_scope.

(** The operations on builders. *)
Definition BuildSame {E : Env} {T : Type} {K : Key T} (vok : T -> Prop) (b : tree T) : Prop :=
  (forall n, t_root b = Some n -> b_clone b = Ok b) /\
  (forall v, vok v -> b_addV b v = b_add b v) /\
  (forall v, vok v -> b_removeV b v = b_remove b v) /\
  (forall args v, vok v -> c_eq args = veq -> cfok (vok := vok) (c_f args) ->
     b_addArgsV args b v = b_addArgs args b v).

Section Clone.
Local Opaque maxTreeDepth fanout fb.
Context {E : Env} {HE : EnvOk E} {T : Type} {K : Key T} {vok : T -> Prop} {KO : KeyOk K vok}.

Lemma set_nth_same {A} (l : list A) d : forall i, (i < length l)%nat -> set_nth l i (nth i l d) = l.
Proof.
  induction l as [|x l IH]; intros i Hi; [simpl in Hi; lia|]. destruct i as [|i]; auto.
  simpl. f_equal. apply IH. simpl in Hi. lia.
Qed.

Lemma clone_wf fuel : forall d n, wf vok d n -> (maxTreeDepth - d < fuel)%nat -> clone fuel n = Ok n.
Proof.
  induction fuel as [|fuel IH]; intros d n Hw Hf; [lia|].
  destruct n as [a|a b|l|m data]; auto. cbn [clone].
  inversion Hw as [| | |d' m' data' Hd Hlen Hm Hch Hp Hl]; subst d' m' data'.
  assert (Hfold : forall order, (forall i, In i order -> exists c, child data i = Some c) ->
    foldM (fun ret i => match child ret i with
      | Some c => c' <- clone fuel c ;; Ok (set_nth ret i (Some c')) | None => Panic end) data order = Ok data).
  { induction order as [|i order IHo]; intros Hin; auto. cbn [foldM].
    destruct (Hin i) as (c & Ec); [left; auto|]. rewrite Ec.
    rewrite (IH (S d) c) by (eauto; lia). cbn [bind].
    replace (set_nth data i (Some c)) with data; [apply IHo; intros; apply Hin; right; auto|].
    rewrite <- Ec. symmetry. apply set_nth_same.
    destruct (Nat.lt_ge_cases i (length data)); auto.
    unfold child in Ec. rewrite nth_overflow in Ec by auto. discriminate. }
  rewrite Hfold; auto. intros i Hi. apply mask_indices_updateMask; auto. rewrite <- Hm; auto.
Qed.

Lemma t_clone_ok t n : tok vok t -> t_root t = Some n -> t_clone t = Ok t.
Proof.
  intros [Hw _] Hn. unfold t_clone. rewrite Hn. rewrite (clone_wf treeFuel 0) by auto using fuelGet_tree.
  cbn [bind]. destruct t. cbn in *. congruence.
Qed.

Lemma vetCheck_ok ts : (forall t, In t ts -> tok vok t) -> vetCheck ts = Ok tt.
Proof.
  induction ts as [|t ts IH]; intros H; auto. unfold vetCheck in *. cbn [foldM].
  rewrite (t_vet_ok (vok := vok)) by (apply H; left; auto). cbn [bind]. apply IH. intros; apply H; right; auto.
Qed.

Lemma vetted_ok {A} ins (op : res A) outs : (forall t, In t ins -> tok vok t) ->
  (forall r, op = Ok r -> forall t, In t (outs r) -> tok vok t) -> vetted ins op outs = op.
Proof.
  intros Hi Ho. unfold vetted. rewrite vetCheck_ok by auto. cbn [bind].
  destruct op as [r| |]; auto. cbn [bind]. rewrite vetCheck_ok by eauto. reflexivity.
Qed.

Lemma b_vetted_ok b op : tok vok b -> (forall b', op = Ok b' -> tok vok b') -> b_vetted b op = op.
Proof.
  intros Hb Ho. unfold b_vetted. destruct (t_root b) as [n|] eqn:Er; auto.
  unfold b_clone. rewrite (t_clone_ok b n) by auto. cbn [bind]. apply vetted_ok.
  - intros t [<-|[]]. auto.
  - intros r Hr t [<-|[]]. auto.
Qed.

(** The operations on trees of elements. *)
Definition VetSame (t u : tree T) : Prop :=
  (forall args, t_combineV args t u = t_combine args t u) /\
  (forall g, t_differenceV g t u = t_difference g t u) /\
  (forall g, t_intersectionV g t u = t_intersection g t u) /\
  (forall g pred, t_whereV g pred t = t_where g pred t) /\
  (forall v, t_withV t v = t_with t v) /\
  (forall v, t_withoutV t v = t_without t v).

Lemma vetSame t u : tok vok t -> tok vok u -> VetSame t u.
Proof.
  intros Ht Hu.
  assert (H1 : forall t', In t' [t] -> tok vok t') by (intros ? [<-|[]]; auto).
  assert (H2 : forall t', In t' [t; u] -> tok vok t') by (intros ? [<-|[<-|[]]]; auto).
  repeat split; intros; apply vetted_ok; auto.
  intros r _ t'. destruct (t_root t), (t_root u); auto.
  destruct (t_count u <? t_count t); auto. intros [<-|[<-|[]]]; auto.
Qed.

Lemma buildSame b : tok vok b -> BuildSame vok b.
Proof.
  intros Hb. split; [|split; [|split]].
  - intros n Hn. eapply t_clone_ok; eauto.
  - intros v Hv. apply b_vetted_ok; auto. destruct (b_add_ok b v Hb Hv) as (r & E1 & Hr & _).
    intros b' Eb. rewrite E1 in Eb. injection Eb as <-. auto.
  - intros v Hv. apply b_vetted_ok; auto. destruct (b_remove_ok b v Hb Hv) as (r & E1 & Hr & _).
    intros b' Eb. rewrite E1 in Eb. injection Eb as <-. auto.
  - intros args v Hv He Hf. apply b_vetted_ok; auto.
    destruct (b_addArgs_ok args b v Hb Hv He Hf) as (r & E1 & Hr & _).
    intros b' Eb. rewrite E1 in Eb. injection Eb as <-. auto.
Qed.

Lemma c56_set s s' : SetReach vok s -> SetReach vok s' -> VetSame (s_tree s) (s_tree s').
Proof. intros Hs Hs'. apply sreach_ok in Hs; auto. apply sreach_ok in Hs'; auto. apply vetSame; auto. Qed.

Lemma c56_builder b : SBReach vok b -> BuildSame vok (sb_tree b).
Proof. intros Hb. apply sbreach_ok in Hb; auto. apply buildSame; auto. Qed.

Lemma c56_fails t u : t_vet t = Panic ->
  (forall args, t_combineV args t u = Panic) /\
  (forall g, t_differenceV g t u = Panic) /\
  (forall g, t_intersectionV g t u = Panic) /\
  (forall g pred, t_whereV g pred t = Panic) /\
  (forall v, t_withV t v = Panic) /\
  (forall v, t_withoutV t v = Panic).
Proof.
  intros H. assert (Hv : forall A l (op : res A) f, vetted (t :: l) op f = Panic).
  { intros. unfold vetted, vetCheck. cbn [foldM]. rewrite H. reflexivity. }
  repeat split; intros; apply Hv.
Qed.
End Clone.

Section CloneMap.
Local Opaque maxTreeDepth fanout fb.
Context {E : Env} {HE : EnvOk E} {T : Type} {K : Key T} {vok : T -> Prop} {KO : KeyOk K vok}.
Context {U : Type} {KU : Key U} {uok : U -> Prop} {KUO : KeyOk KU uok}.

Lemma c56_map s (f : T -> U) : SetReach vok s -> (forall v, vok v -> uok (f v)) ->
  t_mapV f (s_tree s) = t_map f (s_tree s).
Proof.
  intros Hs Hf. apply sreach_ok in Hs; auto. unfold t_mapV, t_map.
  pose proof (tok_allok (s_tree s) Hs) as Hall. rewrite (t_range_ok (s_tree s) Hs). cbn [bind].
  assert (Heq : forall vs b, tok uok b -> (forall v, In v vs -> vok v) ->
    foldM (fun b v => b_addV b (f v)) b vs = foldM (fun b v => b_add b (f v)) b vs).
  { induction vs as [|v vs IH]; intros b Hb Hv; auto. cbn [foldM].
    destruct (buildSame (vok := uok) b Hb) as (_ & Ha & _ & _).
    rewrite Ha by (apply Hf, Hv; left; auto).
    destruct (b_add_ok (vok := uok) b (f v) Hb) as (r & E1 & Hr & _); [apply Hf, Hv; left; auto|].
    rewrite E1. cbn [bind]. apply IH; auto. intros; apply Hv; right; auto. }
  destruct (t_root (s_tree s)).
  - rewrite Heq by (auto using tok_empty). apply (vetted_ok (vok := vok)); intros; cbn [In] in *;
      intuition (subst; auto).
  - apply (vetted_ok (vok := vok)); intros; cbn [In] in *; intuition (subst; auto).
Qed.
End CloneMap.

Section CloneGoMap.
Context {E : Env} {HE : EnvOk E} {X V : Type} {KX : Key X} {kok : X -> Prop} {KO : KeyOk KX kok}.
Context {valok : V -> Prop}.

Lemma c56_maps (m m' : gomap X V) : MapReach kok valok m -> MapReach kok valok m' ->
  VetSame (m_tree m) (m_tree m').
Proof.
  intros Hm Hm'. apply mreach_ok in Hm; auto. apply mreach_ok in Hm'; auto.
  apply (vetSame (vok := eok (kok := kok))); auto.
Qed.

Lemma c56_mapBuilder (b : mapBuilder X V) : MBReach kok valok b ->
  BuildSame (eok (kok := kok)) (mb_tree b).
Proof. intros Hb. apply mbreach_ok in Hb; auto. apply buildSame; auto. Qed.
End CloneGoMap.

(** ** The copy on the heap *)

Section Backup.
Context {E : Env} {EO : EnvOk E} {T : Type} {K : Key T} {vok : T -> Prop} {KO : KeyOk K vok} (grow : nat -> nat -> nat).
Local Opaque maxTreeDepth fanout fb.
Local Open Scope nat_scope.

(** An operation that stays within the memory of [t] and new memory keeps what is apart from it. *)
Lemma apart_keeps {A} (m : M A) (h : heap (T := T)) t t' fuel u' :
  (forall P Q, okPT P t -> safe P Q m (fun _ => True)) -> apart h t t' ->
  readT fuel h t' = Some u' -> readT fuel (snd (m h)) t' = Some u'.
Proof.
  intros Hs [Hn Ha] Hu.
  pose (P := fun q => nodeOf h t q \/ length (h_objs h) <= q).
  pose (Q := fun r => arrayOf h t r \/ length (h_arrs h) <= r).
  destruct (safe_roomy P Q m (fun _ => True) h) as (_ & (_ & _ & W1 & W2 & _) & _).
  - apply Hs. intros p Hp. left. apply nodeOf_root; auto.
  - split; [|split].
    + intros p o [Hp|Hp] Ho.
      * destruct o as [a|a b|r len|mk d]; cbn; auto; [left; exists p, len; auto|]. intros c Hin. left. eapply nodeOf_child; eauto.
      * apply nth_error_Some_lt in Ho. lia.
    + intros p Hp. right. auto.
    + intros r Hr. right. auto.
  - set (h' := snd (m h)) in *. unfold readT in *. destruct (pt_root t') as [p|] eqn:Ep; auto.
    assert (HR : forall fuel p n, nodeOf h t' p -> readN fuel h p = Some n -> readN fuel h' p = Some n).
    { clear Hu Ep p. induction fuel0 as [|k IH]; intros p n Hp; cbn [readN]; [discriminate|].
      destruct (nth_error (h_objs h) p) as [o|] eqn:Eo; [|discriminate]. rewrite W1, Eo.
      - destruct o as [a|a b|r len|mk d]; auto.
        + destruct (nth_error (h_arrs h) r) as [a|] eqn:Er; [|discriminate]. rewrite W2, Er; auto.
          intros [H|H]; [|apply nth_error_Some_lt in Er; lia]. apply (Ha r H). exists p, len. auto.
        + destruct (readAll (readN k h) d) as [l|] eqn:El; [|discriminate].
          assert (Hd : forall c, In (Some c) d -> nodeOf h t' c) by (intros c Hc; eapply nodeOf_child; eauto).
          assert (Hl : readAll (readN k h') d = Some l); [|rewrite Hl; auto].
          clear - IH El Hd. revert l El. induction d as [|[c|] d IHd]; cbn [readAll]; intros l El; auto.
          * destruct (readN k h c) as [x|] eqn:Ex; [|discriminate]. destruct (readAll (readN k h) d) as [l'|]; [|discriminate].
            rewrite (IH c x (Hd c (or_introl eq_refl)) Ex), (IHd (fun c Hc => Hd c (or_intror Hc)) l' eq_refl). exact El.
          * destruct (readAll (readN k h) d) as [l'|]; [|discriminate]. rewrite (IHd (fun c Hc => Hd c (or_intror Hc)) l' eq_refl). exact El.
      - intros [H|H]; [exact (Hn p H Hp)|]. apply nth_error_Some_lt in Eo. lia. }
    destruct (readN fuel h p) as [n|] eqn:En; [|discriminate]. rewrite (HR fuel p n (nodeOf_root h t' p Ep) En). exact Hu.
Qed.

Lemma rep_nodeOf (h h' : heap (T := T)) t p n : rep h p n -> addonly h h' -> pt_root t = Some p ->
  forall q, nodeOf h' t q -> exists n', rep h q n'.
Proof.
  intros Hp ((l & Hl) & _) Ht q Hq. induction Hq as [q Hq|q m d c Hq IH Ho Hin].
  - assert (q = p) by congruence. subst. eauto.
  - destruct IH as (n' & Hn'). assert (Ho' : nth_error (h_objs h) q = Some (OBranch m d)).
    { rewrite Hl, nth_error_app1 in Ho; auto. eapply rep_lt; eauto. }
    inversion Hn' as [? ? H1|? ? ? H1|? ? ? H1 H2|? m' d' ds H1 H2]; subst; try congruence.
    assert (d' = d) by congruence. subst d'. clear - H2 Hin. induction H2 as [|d ds H2 IH|c' n d ds Hc H2 IH]; cbn in Hin.
    + contradiction.
    + destruct Hin as [|Hin]; [discriminate|]. auto.
    + destruct Hin as [[= ->]|Hin]; [eauto|]. auto.
Qed.

Lemma newN_nodeOf b ba (h : heap (T := T)) t : (forall p, pt_root t = Some p -> newN b ba h p) ->
  forall q, nodeOf h t q -> newN b ba h q.
Proof.
  intros Ht q Hq. induction Hq as [q Hq|q m d c Hq IH Ho Hin]; auto.
  inversion IH as [? o H1 H2 H3 H4]; subst. apply (H4 m d); auto. congruence.
Qed.

(** The memory of the copy is new. *)
Lemma c56_copy (cs : list (cmd T)) i t p : progOk vok cs ->
  nth_error (st_builders (reached grow cs)) i = Some t -> pt_root t = Some p ->
  let h := st_heap (reached grow cs) in
  exists t' h', bH_clone grow t h = (Ok t', h') /\
    (forall fuel s u, readT fuel h s = Some u -> readT fuel h' s = Some u) /\
    readT treeFuel h' t' = readT treeFuel h t /\ readT treeFuel h t <> None /\
    (forall q, nodeOf h' t' q -> length (h_objs h) <= q) /\
    (forall r, arrayOf h' t' r -> length (h_arrs h) <= r) /\
    apart h' t t'.
Proof.
  intros Hok Ht Hp h.
  destruct (relatedB_run grow cs initial pinitial (relatedB_initial (vok := vok)) Hok) as [_ Hb]. fold (reached grow cs) in Hb.
  destruct (all2_nth _ _ _ _ _ Hb Ht) as (u & Hu & Hrel). fold h in Hrel.
  pose proof (bldRel_set _ _ _ Hrel) as Hset. pose proof (setRel_read _ _ _ Hset) as Hread.
  destruct (bH_clone_ok grow (vok := vok) t u p h Hread (proj2 (proj2 Hset)) Hp) as (t' & h' & E1 & Ha & Hr' & Hn).
  exists t', h'. split; auto. split; [intros; eapply readT_add; eauto|]. split; [congruence|]. split; [congruence|].
  assert (Hq : forall q, nodeOf h' t' q -> length (h_objs h) <= q).
  { intros q Hq. apply (newN_nodeOf _ _ _ _ Hn) in Hq. inversion Hq; auto. }
  assert (Hq2 : forall r, arrayOf h' t' r -> length (h_arrs h) <= r).
  { intros r (q & len & Hq1 & Hq2). apply (newN_nodeOf _ _ _ _ Hn) in Hq1. inversion Hq1 as [? o H1 H2 H3 H4]; subst.
    eapply H3. rewrite Hq2 in H1. injection H1 as <-. reflexivity. }
  split; auto. split; auto.
  destruct Hset as (Hrep & _). rewrite Hp in Hrep. inversion Hrep as [|? n Hn0]; subst.
  assert (Hold : forall q, nodeOf h' t q -> exists n', rep h q n') by (eapply rep_nodeOf; eauto).
  split.
  - intros q H1 H2. destruct (Hold q H1) as (n' & Hn'). apply rep_lt in Hn'. specialize (Hq q H2). lia.
  - intros r (q & len & H1 & H2) H3. destruct (Hold q H1) as (n' & Hn'). specialize (Hq2 r H3).
    destruct Ha as ((l & Hl) & _).
    assert (Ho' : nth_error (h_objs h) q = Some (OTwig r len)).
    { rewrite Hl, nth_error_app1 in H2; auto. eapply rep_lt; eauto. }
    inversion Hn' as [? ? H4|? ? ? H4|? r' l' H4 H5|? m' d' ds H4 H5]; subst; try congruence.
    assert (r' = r) by congruence. subst r'. destruct H5 as (a & H5 & _). apply nth_error_Some_lt in H5. lia.
Qed.

(** What the builder does next leaves the copy as it is. *)
Lemma c56_backup (cs : list (cmd T)) i t p v : progOk vok cs ->
  nth_error (st_builders (reached grow cs)) i = Some t -> pt_root t = Some p ->
  let h := st_heap (reached grow cs) in
  exists t' h', bH_clone grow t h = (Ok t', h') /\
    readT treeFuel (snd (bH_add grow t v h')) t' = readT treeFuel h t /\
    readT treeFuel (snd (bH_remove grow t v h')) t' = readT treeFuel h t.
Proof.
  intros Hok Ht Hp h. destruct (c56_copy cs i t p Hok Ht Hp) as (t' & h' & E1 & _ & Hr & Hne & _ & _ & Hap). fold h in E1, Hr, Hne.
  exists t', h'. split; auto. destruct (readT treeFuel h t) as [u|] eqn:Eu; [|congruence].
  split.
  - apply (apart_keeps _ h' t); auto. intros P Q HP. eapply safe_weaken; [apply safe_bH_add; auto|auto].
  - apply (apart_keeps _ h' t); auto. intros P Q HP. eapply safe_weaken; [apply safe_bH_remove; auto|auto].
Qed.
End Backup.
