(** * SpecBulk: what the operations on whole sets allocate, and what their results share (C61). *)
From Verif Require Import Base Bits Env EnvFacts Node NodeWf NodeAdd NodeRemove NodeBin Tree TreeFacts.
From Verif Require Import HeapModel HeapFrame HeapOwn HeapRep HeapSim HeapSim2 HeapProg HeapProgSim HeapQuiet HeapAlloc HeapBulk SpecHeap SpecAlloc.
Local Open Scope nat_scope.

Section SpecBulk.
Context {E : Env} {T : Type} {K : Key T} (grow : nat -> nat -> nat).
Local Opaque maxTreeDepth fanout fb.

(** Every node and array of the result is new, or one of the operands' own. *)
Definition sharesOnly (h h' : heap (T := T)) (r : ptree) (ts : list ptree) : Prop :=
  (forall q, nodeOf h' r q -> (exists t, In t ts /\ nodeOf h t q) \/ length (h_objs h) <= q) /\
  (forall a, arrayOf h' r a -> (exists t, In t ts /\ arrayOf h t a) \/ length (h_arrs h) <= a).

Lemma shares_list (m : M ptree) (h : heap (T := T)) ts r h' : (forall P Q, (forall t, In t ts -> okPT P t) -> safe P Q m (okPT P)) -> m h = (Ok r, h') ->
  sharesOnly h h' r ts.
Proof.
  intros Hs Hm. pose (P := fun q => (exists t, In t ts /\ nodeOf h t q) \/ length (h_objs h) <= q).
  pose (Q := fun a => (exists t, In t ts /\ arrayOf h t a) \/ length (h_arrs h) <= a).
  assert (HP : forall t, In t ts -> okPT P t) by (intros t Ht p Hp; left; exists t; split; auto; apply nodeOf_root; auto).
  destruct (safe_roomy P Q m (okPT P) h (Hs P Q HP)) as (Hc & _ & Hr).
  - split; [|split].
    + intros p o [(t & Ht & Hp)|Hp] Ho.
      * destruct o as [a|a b|a len|mk d]; cbn; auto; [left; exists t; split; auto; exists p, len; auto|]. intros c Hin. left. exists t. split; auto. eapply nodeOf_child; eauto.
      * apply nth_error_Some_lt in Ho. lia.
    + intros p Hp. right. auto.
    + intros a Ha. right. auto.
  - rewrite Hm in *. cbn [fst snd] in *. assert (Hn : forall q, nodeOf h' r q -> P q) by (apply (nodeOf_in P Q h' r Hc); auto). split; [exact Hn|].
    intros a (p & len & Hp & Ho). exact (Hc p _ (Hn p Hp) Ho).
Qed.

(** For every set, whatever its elements and their hashes. *)
Lemma c61_combine_shares (h h' : heap (T := T)) args t u r : tH_combine grow args t u h = (Ok r, h') -> sharesOnly h h' r [t; u].
Proof. apply shares_list. intros P Q H. apply safe_tH_combine; apply H; cbn; auto. Qed.
Lemma c61_difference_shares (h h' : heap (T := T)) g t u r : tH_difference grow g t u h = (Ok r, h') -> sharesOnly h h' r [t; u].
Proof. apply shares_list. intros P Q H. apply safe_tH_difference; apply H; cbn; auto. Qed.
Lemma c61_intersection_shares (h h' : heap (T := T)) g t u r : tH_intersection grow g t u h = (Ok r, h') -> sharesOnly h h' r [t; u].
Proof. apply shares_list. intros P Q H. apply safe_tH_intersection; apply H; cbn; auto. Qed.
Lemma c61_where_shares (h h' : heap (T := T)) g pred t r : tH_where grow g pred t h = (Ok r, h') -> sharesOnly h h' r [t].
Proof. apply shares_list. intros P Q H. apply safe_tH_where; apply H; cbn; auto. Qed.

End SpecBulk.

Section SpecBulkOk.
Context {E : Env} {EO : EnvOk E} {T : Type} {K : Key T} {vok : T -> Prop} {KO : KeyOk K vok} (grow : nat -> nat -> nat).
Local Opaque maxTreeDepth fanout fb.

Lemma reached_related (cs : list (cmd T)) : noTripleHash vok -> progOk vok cs -> related (vok := vok) (reached grow cs) (prun cs pinitial).
Proof. intros Hno Hok. apply (run_still grow (noTripleHash_noTriple Hno) cs initial pinitial (related_initial (vok := vok)) Hok). Qed.
Lemma related_set st ps i t : related (vok := vok) st ps -> nth_error (st_sets st) i = Some t -> exists u, setRel (vok := vok) (st_heap st) t u /\ nth_error (ps_sets ps) i = Some u.
Proof. intros (_ & Hs & _) Ht. destruct (all2_nth _ _ _ _ _ Hs Ht) as (u & Hu & H). eauto. Qed.

(** Where allocates in proportion to the set, with any number of elements sharing a hash. *)
Lemma c61_where (cs : list (cmd T)) i t g pred : progOk vok cs -> h_over (st_heap (reached grow cs)) = 0%nat ->
  nth_error (st_sets (reached grow cs)) i = Some t -> gaugeOk g ->
  let h := st_heap (reached grow cs) in
  hsize (snd (tH_where grow g pred t h)) <= hsize h + 4 * (maxTreeDepth + 1) * Z.to_nat (pt_count t).
Proof.
  intros Hok Ho Ht Hg. cbn zeta. assert (Hr : related (vok := vok) (reached grow cs) (prun cs pinitial)).
  { apply related_run; auto. apply related_initial. }
  destruct (related_set _ _ _ _ Hr Ht) as (u & Hu & _). eapply costs_tH_where; eauto.
Qed.

(** Where no three elements share a hash, the operations on two sets allocate in proportion to the smaller set. *)
Lemma c61_combine (cs : list (cmd T)) i j t u args : noTripleHash vok -> progOk vok cs ->
  nth_error (st_sets (reached grow cs)) i = Some t -> nth_error (st_sets (reached grow cs)) j = Some u ->
  c_eq args = veq -> cfok (vok := vok) (c_f args) -> gaugeOk (c_gauge args) ->
  let h := st_heap (reached grow cs) in
  hsize (snd (tH_combine grow args t u h)) <= hsize h + (16 * maxTreeDepth + 10) * (maxTreeDepth + 1) * Z.to_nat (Z.min (pt_count t) (pt_count u)).
Proof.
  intros Hno Hok Ht Hu Heq Hf Hg. cbn zeta. assert (Hr := reached_related cs Hno Hok).
  destruct (related_set _ _ _ _ Hr Ht) as (t' & Ht' & _), (related_set _ _ _ _ Hr Hu) as (u' & Hu' & _).
  eapply costs_tH_combine; eauto using noTripleHash_noTriple.
Qed.

Lemma c61_difference (cs : list (cmd T)) i j t u g : noTripleHash vok -> progOk vok cs ->
  nth_error (st_sets (reached grow cs)) i = Some t -> nth_error (st_sets (reached grow cs)) j = Some u -> gaugeOk g ->
  let h := st_heap (reached grow cs) in
  hsize (snd (tH_difference grow g t u h)) <= hsize h + (16 * maxTreeDepth + 10) * (maxTreeDepth + 1) * Z.to_nat (Z.min (pt_count t) (pt_count u)).
Proof.
  intros Hno Hok Ht Hu Hg. cbn zeta. assert (Hr := reached_related cs Hno Hok).
  destruct (related_set _ _ _ _ Hr Ht) as (t' & Ht' & _), (related_set _ _ _ _ Hr Hu) as (u' & Hu' & _).
  eapply costs_tH_difference; eauto using noTripleHash_noTriple.
Qed.

Lemma c61_intersection (cs : list (cmd T)) i j t u g : noTripleHash vok -> progOk vok cs ->
  nth_error (st_sets (reached grow cs)) i = Some t -> nth_error (st_sets (reached grow cs)) j = Some u -> gaugeOk g ->
  let h := st_heap (reached grow cs) in
  hsize (snd (tH_intersection grow g t u h)) <= hsize h + (16 * maxTreeDepth + 10) * (maxTreeDepth + 1) * Z.to_nat (Z.min (pt_count t) (pt_count u)).
Proof.
  intros Hno Hok Ht Hu Hg. cbn zeta. assert (Hr := reached_related cs Hno Hok).
  destruct (related_set _ _ _ _ Hr Ht) as (t' & Ht' & _), (related_set _ _ _ _ Hr Hu) as (u' & Hu' & _).
  eapply costs_tH_intersection; eauto using noTripleHash_noTriple.
Qed.

(** And Where with a predicate that keeps every element returns the receiver itself and allocates nothing. *)
Lemma c61_where_all (cs : list (cmd T)) i t u g pred : noTripleHash vok -> progOk vok cs ->
  nth_error (st_sets (reached grow cs)) i = Some t -> valueOf (reached grow cs) t u -> gaugeOk g -> (forall e, In e (tel u) -> pred e = true) ->
  tH_where grow g pred t (st_heap (reached grow cs)) = (Ok t, st_heap (reached grow cs)).
Proof.
  intros Hno Hok Ht Hv Hg Hp. assert (Hr := reached_related cs Hno Hok). destruct (related_set _ _ _ _ Hr Ht) as (u' & Hu' & _).
  assert (Hv' : valueOf (reached grow cs) t u') by (eapply setRel_read; eauto).
  assert (u' = u) by (unfold valueOf in *; congruence). subst u'.
  eapply tH_where_all; eauto using noTripleHash_noTriple.
Qed.

End SpecBulkOk.
