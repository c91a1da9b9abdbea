(** * SpecReduce: callbacks that Reduce gives the set's own memory (C54). *)
From Coq Require Import Sorting.Permutation.
From Verif Require Import Base Bits Env EnvFacts Node NodeWf NodeAdd NodeRemove NodeUn Tree TreeFacts SetApi.
From Verif Require Import HeapModel HeapFrame HeapOwn HeapRep HeapSim HeapProg HeapProgSim HeapQuiet SpecHeap SpecAlloc HeapReduce.
Local Open Scope nat_scope.

(** The state after [Reduce] on a set: only the heap may change. *)
Definition afterReduce {E : Env} {T : Type} {K : Key T} (grow : nat -> nat -> nat) (st : state (T := T)) (t : ptree) (f : callback (T := T)) : state (T := T) :=
  mkState (snd (tH_reduce grow t f (st_heap st))) (st_sets st) (st_builders st).

(** The callback of [Reduce2] (set.go:241-247), which makes no assignment to its arguments. *)
Definition reducer2H {T : Type} (dflt : T) (op : T -> T -> T) : callback (T := T) := fun l => (reducer2 dflt op l, []).

(** Two sets that have no node and no array in common. *)
Definition apart {T : Type} (h : heap (T := T)) (t u : ptree) : Prop :=
  (forall q, nodeOf h t q -> ~ nodeOf h u q) /\ (forall r, arrayOf h t r -> ~ arrayOf h u r).

(** Every bucket of the set uses all slots of its array that any set uses. *)
Definition tightSet {T : Type} (h : heap (T := T)) (t : ptree) : Prop := forall p, pt_root t = Some p -> tight h p.

Section SpecReduce.
Context {E : Env} {T : Type} {K : Key T} (grow : nat -> nat -> nat).
Local Opaque maxTreeDepth fanout fb.

Lemma tH_reduce_silent (t : ptree) u f (h : heap (T := T)) : silent f -> readT treeFuel h t = Some u ->
  addonly h (snd (tH_reduce grow t f h)) /\ fst (tH_reduce grow t f h) = t_reduce (newGauge (t_count u)) (fun l => fst (f l)) u.
Proof.
  intros Hf. unfold readT, tH_reduce, t_reduce. destruct (pt_root t) as [p|].
  - destruct (readN treeFuel h p) as [n|] eqn:En; [|discriminate]. intros [= <-]. cbn [t_root t_count].
    destruct (reduceH_silent grow treeFuel treeFuel (newGauge (pt_count t)) f p n 0 h Hf En) as [H1 H2].
    unfold bindM. destruct (reduceH grow treeFuel (newGauge (pt_count t)) f p 0 h) as [o h1]. cbn [fst snd] in *. subst o.
    destruct (reduce _ _ _ _ _); cbn; auto.
  - intros [= <-]. cbn. split; [apply addonly_refl|reflexivity].
Qed.

(** A callback that only reads its arguments: all sets keep their values, whatever they share, and the result is that on values. *)
Lemma c54_reads (cs : list (cmd T)) i j t t' u u' f : silent f ->
  nth_error (st_sets (reached grow cs)) i = Some t -> valueOf (reached grow cs) t u ->
  nth_error (st_sets (reached grow cs)) j = Some t' -> valueOf (reached grow cs) t' u' ->
  fst (tH_reduce grow t f (st_heap (reached grow cs))) = t_reduce (newGauge (t_count u)) (fun l => fst (f l)) u /\
  valueOf (afterReduce grow (reached grow cs) t f) t' u'.
Proof.
  intros Hf _ Hu _ Hu'. destruct (tH_reduce_silent t u f _ Hf Hu) as [H1 H2]. split; auto.
  unfold valueOf, afterReduce. cbn [st_heap]. eapply readT_add; eauto.
Qed.

(** [Reduce2], whose callback only reads (set.go:240-248): the same for every binary function. *)
Lemma c54_reduce2 (cs : list (cmd T)) i j t t' u u' dflt op :
  nth_error (st_sets (reached grow cs)) i = Some t -> valueOf (reached grow cs) t u ->
  nth_error (st_sets (reached grow cs)) j = Some t' -> valueOf (reached grow cs) t' u' ->
  fst (tH_reduce grow t (reducer2H dflt op) (st_heap (reached grow cs))) = s_reduce2 dflt (mkSet u) op /\
  valueOf (afterReduce grow (reached grow cs) t (reducer2H dflt op)) t' u'.
Proof. intros. apply (c54_reads cs i j t t' u u' (reducer2H dflt op)); auto. intros l. reflexivity. Qed.

Lemma safe_tH_reduce P Q t (f : callback (T := T)) : okPT P t -> safe P Q (tH_reduce grow t f) (fun _ => True).
Proof.
  intros Ht. unfold tH_reduce. destruct (pt_root t) as [p|] eqn:Ep; [|apply safe_ret; exact Logic.I].
  eapply safe_bind; [intros; apply gr_ret|apply safe_reduceH; auto|]. intros. apply safe_ret. exact Logic.I.
Qed.

(** Any callback: sets that share no memory with the set it is called for keep their values. *)
Lemma c54_apart (cs : list (cmd T)) i j t t' u' f :
  nth_error (st_sets (reached grow cs)) i = Some t ->
  nth_error (st_sets (reached grow cs)) j = Some t' -> valueOf (reached grow cs) t' u' ->
  apart (st_heap (reached grow cs)) t t' ->
  valueOf (afterReduce grow (reached grow cs) t f) t' u'.
Proof.
  intros _ _ Hu [Hn Ha]. set (h := st_heap (reached grow cs)) in *.
  pose (P := fun q => nodeOf h t q \/ length (h_objs h) <= q).
  pose (Q := fun r => arrayOf h t r \/ length (h_arrs h) <= r).
  destruct (safe_roomy P Q (tH_reduce grow t f) (fun _ => True) h) as (_ & (_ & _ & W1 & W2 & _) & _).
  - apply safe_tH_reduce. intros p Hp. left. apply nodeOf_root; auto.
  - split; [|split].
    + intros p o [Hp|Hp] Ho.
      * destruct o as [a|a b|r len|mk d]; cbn; auto; [left; exists p, len; auto|]. intros c Hin. left. eapply nodeOf_child; eauto.
      * apply nth_error_Some_lt in Ho. lia.
    + intros p Hp. right. auto.
    + intros r Hr. right. auto.
  - set (h' := snd (tH_reduce grow t f h)) in *. unfold valueOf, afterReduce. cbn [st_heap]. fold h h'.
    unfold valueOf in Hu. fold h in Hu. unfold readT in *. destruct (pt_root t') as [p|] eqn:Ep; auto.
    assert (HR : forall fuel p n, nodeOf h t' p -> readN fuel h p = Some n -> readN fuel h' p = Some n).
    { clear Hu Ep p. induction fuel as [|k IH]; intros p n Hp; cbn [readN]; [discriminate|].
      destruct (nth_error (h_objs h) p) as [o|] eqn:Eo; [|discriminate]. rewrite W1, Eo.
      - destruct o as [a|a b|r len|m d]; auto.
        + destruct (nth_error (h_arrs h) r) as [a|] eqn:Er; [|discriminate]. rewrite W2, Er; auto.
          intros [H|H]; [|apply nth_error_Some_lt in Er; lia]. apply (Ha r H). exists p, len. auto.
        + destruct (readAll (readN k h) d) as [l|] eqn:El; [|discriminate].
          assert (Hd : forall c, In (Some c) d -> nodeOf h t' c) by (intros c Hc; eapply nodeOf_child; eauto).
          assert (Hl : readAll (readN k h') d = Some l); [|rewrite Hl; auto].
          clear - IH El Hd. revert l El. induction d as [|[c|] d IHd]; cbn [readAll]; intros l El; auto.
          * destruct (readN k h c) as [x|] eqn:Ex; [|discriminate]. destruct (readAll (readN k h) d) as [l'|]; [|discriminate].
            rewrite (IH c x (Hd c (or_introl eq_refl)) Ex), (IHd (fun c Hc => Hd c (or_intror Hc)) l' eq_refl). exact El.
          * destruct (readAll (readN k h) d) as [l'|]; [|discriminate]. rewrite (IHd (fun c Hc => Hd c (or_intror Hc)) l' eq_refl). exact El.
      - intros [H|H]; [exact (Hn p H Hp)|]. apply nth_error_Some_lt in Eo. lia. }
    destruct (readN treeFuel h p) as [n|] eqn:En; [|discriminate]. rewrite (HR treeFuel p n (nodeOf_root h t' p Ep) En). exact Hu.
Qed.

End SpecReduce.

Section SpecReduceOk.
Context {E : Env} {EO : EnvOk E} {T : Type} {K : Key T} {vok : T -> Prop} {KO : KeyOk K vok} (grow : nat -> nat -> nat).
Local Opaque maxTreeDepth fanout fb.

Lemma updateMask_shuf ds ds' : shufs (T := T) ds ds' -> updateMask ds = updateMask ds'.
Proof.
  intros H. unfold updateMask. generalize 0, 0%N. induction H; intros i m; cbn; auto.
Qed.
Lemma shufs_length ds ds' : shufs (T := T) ds ds' -> length ds = length ds'.
Proof. induction 1; cbn; auto. Qed.

Lemma wf_shuf d n : wf vok d n -> forall n', shuf n n' -> wf vok d n'.
Proof.
  intros H. induction H as [d a Hd Ha|d a b Hd Ha Hb Hab|d l Hd Hl Hok Hdis|d m data Hd Hlen Hm Hc IH Hp Hl]; intros n' Hs;
    inversion Hs as [a'|a' b' c e HP|l1 l2 HP|m' ds ds' HS]; subst.
  - constructor; auto.
  - assert (Hdis : distinct [a; b]) by (constructor; [intros x [<-|[]]; auto|constructor; [intros x []|constructor]]).
    assert (Hok : allok vok [a; b]) by (intros x [<-|[<-|[]]]; auto).
    assert (Hd2 : distinct [c; e]) by (apply (distinct_perm (vok := vok) [a; b]); auto).
    assert (Hin : forall x, In x [c; e] -> vok x) by (intros x Hx; apply Hok; eapply Permutation_in; [symmetry; exact HP|exact Hx]).
    inversion Hd2 as [|? ? H1 H2]; subst. constructor; auto; try (apply Hin; cbn; auto). apply H1. cbn. auto.
  - constructor; auto.
    + rewrite <- (Permutation_length HP). auto.
    + intros x Hx. apply Hok. eapply Permutation_in; [symmetry; exact HP|exact Hx].
    + apply (distinct_perm (vok := vok) l); auto.
  - rewrite (updateMask_shuf _ _ HS). constructor; auto.
    + rewrite <- (shufs_length _ _ HS). auto.
    + intros i c Ec. destruct (shufs_child _ _ i HS) as [[_ E2]|(x & x' & E1 & E2 & Hx)]; [congruence|]. assert (x' = c) by congruence. subst. eauto.
    + intros i e He. destruct (shufs_child _ _ i HS) as [[E1 E2]|(x & x' & E1 & E2 & Hx)]; rewrite E2 in He; [destruct He|].
      apply (Hp i e). rewrite E1. cbn in *. eapply Permutation_in; [symmetry; apply shuf_elems; exact Hx|exact He].
    + rewrite <- (updateMask_shuf _ _ HS). rewrite <- (Permutation_length (shuf_elems _ _ Hs)). auto.
Qed.

(** The values of a set before and after: well formed trees with the same elements. *)
Lemma setRel_shuf (h h' : heap (T := T)) t u : shuffled h h' -> tightSet h t -> setRel (vok := vok) h t u ->
  exists u', setRel (vok := vok) h' t u' /\ t_count u' = t_count u /\ Permutation (tel u) (tel u').
Proof.
  intros Hs Ht (Hr & Hc & Hw & Hn). destruct u as [o c]. cbn [t_root t_count] in *. inversion Hr as [E1 E2|p n Hp E1 E2]; subst o.
  - exists (mkTree None c). split; [|split; [reflexivity|apply Permutation_refl]]. split; [cbn [t_root]; rewrite <- E1; constructor|]. split; auto. split; auto.
  - destruct (rep_shuf h h' Hs p n Hp (Ht p (eq_sym E1))) as (n' & H1 & H2). exists (mkTree (Some n') c).
    assert (HP := shuf_elems _ _ H2). split; [|split; [reflexivity|exact HP]]. split; [cbn [t_root]; rewrite <- E1; constructor; auto|]. split; auto. split.
    + cbn [t_root]. apply wfo_Some. apply (wf_shuf 0 n); auto.
    + cbn [t_count]. rewrite Hn. cbn [tel t_root elemso]. f_equal. apply Permutation_length. exact HP.
Qed.

Lemma tH_reduce_permuting (h : heap (T := T)) t u f : permuting f -> tightSet h t -> repo h (pt_root t) (t_root u) -> pt_count t = t_count u ->
  shuffled h (snd (tH_reduce grow t f h)) /\
  (anyOrder (fun l => fst (f l)) -> fst (tH_reduce grow t f h) = t_reduce (newGauge (t_count u)) (fun l => fst (f l)) u).
Proof.
  intros Hf Ht Hr Hc. unfold tH_reduce, t_reduce. destruct u as [o c]. cbn [t_root t_count] in *. inversion Hr as [E1 E2|p n Hp E1 E2]; subst.
  - cbn. split; [apply shuffled_refl|reflexivity].
  - destruct (reduceH_permuting grow treeFuel (newGauge (pt_count t)) f p n 0 h Hf Hp (Ht p (eq_sym E1))) as [H1 H2].
    unfold bindM. destruct (reduceH grow treeFuel (newGauge (pt_count t)) f p 0 h) as [o h1]. cbn [fst snd] in *. split.
    + destruct o; exact H1.
    + intros HC. rewrite <- (H2 HC). destruct o; reflexivity.
Qed.

Lemma rep_tight d (h : heap (T := T)) p n : noTripleHash vok -> rep h p n -> good (vok := vok) d n -> tight h p.
Proof.
  intros Hno Hr. revert d. revert p n Hr.
  apply (rep_ind2 h (fun p n => forall d, good (vok := vok) d n -> tight h p)
    (fun da ds => forall i c, childP da i = Some c -> exists n, child ds i = Some n /\ forall d, good (vok := vok) d n -> tight h c)).
  - intros p a Ho d _. eapply tight_leaf1; eauto.
  - intros p a b Ho d _. eapply tight_leaf2; eauto.
  - intros p r l Ho _ d Hg. exfalso. eapply good_twig; eauto. apply noTripleHash_noTriple; auto.
  - intros p m da ds Ho _ IH d Hg. eapply tight_branch; eauto. intros c Hc. apply In_nth with (d := None) in Hc as (i & _ & Ei).
    destruct (IH i c Ei) as (n & En & Hn). apply (Hn (S d)). eapply good_child; eauto.
  - intros i c. destruct i; discriminate.
  - intros da ds _ IH [|i] c Hc; [discriminate|]. apply (IH i c Hc).
  - intros q n da ds _ IH1 _ IH2 [|i] c Hc; [|apply (IH2 i c Hc)]. injection Hc as ->. exists n. auto.
Qed.

(** A callback that only changes the order of its arguments (one that sorts them, say): sets with tight buckets keep their elements, and
    if the result of the callback does not depend on the order, it is that on values. *)
Lemma c54_order (cs : list (cmd T)) i j t t' f : progOk vok cs -> h_over (st_heap (reached grow cs)) = 0 -> permuting f ->
  nth_error (st_sets (reached grow cs)) i = Some t -> tightSet (st_heap (reached grow cs)) t ->
  nth_error (st_sets (reached grow cs)) j = Some t' -> tightSet (st_heap (reached grow cs)) t' ->
  (forall u, valueOf (reached grow cs) t u -> anyOrder (fun l => fst (f l)) ->
     fst (tH_reduce grow t f (st_heap (reached grow cs))) = t_reduce (newGauge (t_count u)) (fun l => fst (f l)) u) /\
  exists u u', valueOf (reached grow cs) t' u /\ valueOf (afterReduce grow (reached grow cs) t f) t' u' /\
    tok vok u' /\ Permutation (tel u) (tel u') /\
    (forall v, vok v -> t_get u' v = t_get u v).
Proof.
  intros Hok Ho Hf Hi Ht Hj Ht'. assert (Hr : related (vok := vok) (reached grow cs) (prun cs pinitial)) by (apply related_run; auto; apply related_initial).
  destruct Hr as (_ & Hs & _). destruct (all2_nth _ _ _ _ _ Hs Hi) as (u1 & _ & Hu1). destruct (all2_nth _ _ _ _ _ Hs Hj) as (u2 & _ & Hu2).
  destruct (tH_reduce_permuting _ t u1 f Hf Ht (proj1 Hu1) (proj1 (proj2 Hu1))) as [H1 H2]. split.
  - intros u Hu HC. unfold valueOf in Hu. rewrite (setRel_read _ _ _ Hu1) in Hu. injection Hu as <-. auto.
  - destruct (setRel_shuf _ _ t' u2 H1 Ht' Hu2) as (u' & H3 & H4 & H5). exists u2, u'. split; [apply (setRel_read _ _ _ Hu2)|].
    split; [apply (setRel_read _ _ _ H3)|]. destruct H3 as (_ & _ & Hok'). destruct Hu2 as (_ & _ & Hok2). split; auto. split; auto.
    intros v Hv. rewrite !(t_get_ok (vok := vok)) by auto. f_equal. apply (lookup_perm (vok := vok)); auto using Permutation_sym.
    + apply (tok_distinct (vok := vok)); auto.
    + apply (tok_allok (vok := vok)); auto.
Qed.

(** Where no three different elements share a hash there are no buckets: then this holds for all sets. *)
Lemma c54_hash (cs : list (cmd T)) i j t t' f : noTripleHash vok -> progOk vok cs -> permuting f ->
  nth_error (st_sets (reached grow cs)) i = Some t -> nth_error (st_sets (reached grow cs)) j = Some t' ->
  (forall u, valueOf (reached grow cs) t u -> anyOrder (fun l => fst (f l)) ->
     fst (tH_reduce grow t f (st_heap (reached grow cs))) = t_reduce (newGauge (t_count u)) (fun l => fst (f l)) u) /\
  exists u u', valueOf (reached grow cs) t' u /\ valueOf (afterReduce grow (reached grow cs) t f) t' u' /\
    tok vok u' /\ Permutation (tel u) (tel u') /\
    (forall v, vok v -> t_get u' v = t_get u v).
Proof.
  intros Hno Hok Hf Hi Hj. assert (Ho := noTripleHash_over (vok := vok) grow cs Hno Hok).
  assert (Hr : related (vok := vok) (reached grow cs) (prun cs pinitial)) by (apply related_run; auto; apply related_initial).
  assert (Hall : forall k s, nth_error (st_sets (reached grow cs)) k = Some s -> tightSet (st_heap (reached grow cs)) s).
  { intros k s Hs p Hp. destruct Hr as (_ & Hss & _). destruct (all2_nth _ _ _ _ _ Hss Hs) as (u & _ & Hu & _ & Hw & _).
    rewrite Hp in Hu. inversion Hu as [|p' n Hn E1 E2]; subst. rewrite <- E2 in Hw. apply wfo_Some in Hw.
    apply (rep_tight 0 _ _ _ Hno Hn). apply good0. auto. }
  apply (c54_order cs i j); auto; eapply Hall; eauto.
Qed.
End SpecReduceOk.
