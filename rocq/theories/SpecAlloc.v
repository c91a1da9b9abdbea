(** * SpecAlloc: what With, Without and the builder calls allocate, and what results share (C53).

    All statements are about the states that programs of HeapProg.v reach; nothing is assumed about elements, hashes, or the
    growth of arrays, and slots in use may have been overwritten (C18). *)
From Verif Require Import Base Bits Env EnvFacts Node Tree HeapModel HeapFrame HeapOwn HeapProg HeapAlloc HeapDeep SpecHeap.
Local Open Scope nat_scope.

Section SpecAlloc.
Context {E : Env} {T : Type} {K : Key T} (grow : nat -> nat -> nat).
Local Opaque maxTreeDepth fanout fb.

(** The nodes of a set. *)
Inductive nodeOf (h : heap (T := T)) (t : ptree) : nat -> Prop :=
| nodeOf_root p : pt_root t = Some p -> nodeOf h t p
| nodeOf_child p m d c : nodeOf h t p -> nth_error (h_objs h) p = Some (OBranch m d) -> In (Some c) d -> nodeOf h t c.
(** The arrays of its twigs. *)
Definition arrayOf (h : heap (T := T)) (t : ptree) (r : nat) : Prop := exists p len, nodeOf h t p /\ nth_error (h_objs h) p = Some (OTwig r len).

Lemma nodeOf_in (P : nat -> Prop) Q (h : heap (T := T)) t : closed P Q h -> okPT P t -> forall p, nodeOf h t p -> P p.
Proof. intros Hc Ht p H. induction H as [p Hp|p m d c H IH Ho Hin]; [apply Ht; auto|]. exact (Hc p _ IH Ho c Hin). Qed.

Lemma shares (m : M ptree) (h : heap (T := T)) t t' h' : (forall P Q, okPT P t -> safe P Q m (okPT P)) -> m h = (Ok t', h') ->
  (forall q, nodeOf h' t' q -> nodeOf h t q \/ length (h_objs h) <= q) /\
  (forall r, arrayOf h' t' r -> arrayOf h t r \/ length (h_arrs h) <= r).
Proof.
  intros Hs Hm. pose (P := fun q => nodeOf h t q \/ length (h_objs h) <= q).
  pose (Q := fun r => arrayOf h t r \/ length (h_arrs h) <= r).
  assert (HP : okPT P t) by (intros p Hp; left; apply nodeOf_root; auto).
  destruct (safe_roomy P Q m (okPT P) h (Hs P Q HP)) as (Hc & _ & Hr).
  - split; [|split].
    + intros p o [Hp|Hp] Ho.
      * destruct o as [a|a b|r len|mk d]; cbn; auto; [left; exists p, len; auto|]. intros c Hin. left. eapply nodeOf_child; eauto.
      * apply nth_error_Some_lt in Ho. lia.
    + intros p Hp. right. auto.
    + intros r Hr. right. auto.
  - rewrite Hm in *. cbn [fst snd] in *. assert (Hn : forall q, nodeOf h' t' q -> P q) by (apply (nodeOf_in P Q h' t' Hc); auto). split; [exact Hn|].
    intros r (p & len & Hp & Ho). exact (Hc p _ (Hn p Hp) Ho).
Qed.

Lemma reached_levels cs : levels (reached grow cs).
Proof. apply levels_run. apply levels_initial. Qed.

(** In every set, twigs lie at depth [maxTreeDepth] or more and branches above it, even where slots in use were overwritten. *)
Lemma c53_levels (cs : list (cmd T)) i t p : nth_error (st_sets (reached grow cs)) i = Some t -> pt_root t = Some p ->
  deep (st_heap (reached grow cs)) p 0.
Proof. intros Hi Hp. eapply levels_sets; eauto. apply reached_levels. Qed.

(** With allocates a number of nodes and arrays that depends on the width of the trie only, however large the set is. *)
Lemma c53_with (cs : list (cmd T)) i t v : nth_error (st_sets (reached grow cs)) i = Some t ->
  let h := st_heap (reached grow cs) in hsize (snd (tH_with grow t v h)) <= hsize h + (4 * maxTreeDepth + 3).
Proof. intros Hi. cbn zeta. apply costs_tH_with. intros p Hp. eapply levels_sets; eauto. apply reached_levels. Qed.

Lemma c53_without (cs : list (cmd T)) i t v : nth_error (st_sets (reached grow cs)) i = Some t ->
  let h := st_heap (reached grow cs) in hsize (snd (tH_without grow t v h)) <= hsize h + (4 * maxTreeDepth + 3).
Proof. intros Hi. cbn zeta. apply costs_tH_without. intros p Hp. eapply levels_sets; eauto. apply reached_levels. Qed.

Lemma c53_add (cs : list (cmd T)) i t v : nth_error (st_builders (reached grow cs)) i = Some t ->
  let h := st_heap (reached grow cs) in hsize (snd (bH_add grow t v h)) <= hsize h + (4 * maxTreeDepth + 2).
Proof. intros Hi. cbn zeta. apply costs_bH_add. intros p Hp. eapply levels_builders; eauto. apply reached_levels. Qed.

Lemma c53_remove (cs : list (cmd T)) i t v : nth_error (st_builders (reached grow cs)) i = Some t ->
  let h := st_heap (reached grow cs) in hsize (snd (bH_remove grow t v h)) <= hsize h + (2 * maxTreeDepth + 1).
Proof. intros Hi. cbn zeta. apply costs_bH_remove. intros p Hp. eapply levels_builders; eauto. apply reached_levels. Qed.

(** Every node and array of the result that is not new is one of the receiver. *)
Lemma c53_with_shares (h h' : heap (T := T)) t t' v : tH_with grow t v h = (Ok t', h') ->
  (forall q, nodeOf h' t' q -> nodeOf h t q \/ length (h_objs h) <= q) /\
  (forall r, arrayOf h' t' r -> arrayOf h t r \/ length (h_arrs h) <= r).
Proof. intros Hm. apply (shares (tH_with grow t v)); auto. intros P Q Ht. apply safe_tH_with. auto. Qed.

Lemma c53_without_shares (h h' : heap (T := T)) t t' v : tH_without grow t v h = (Ok t', h') ->
  (forall q, nodeOf h' t' q -> nodeOf h t q \/ length (h_objs h) <= q) /\
  (forall r, arrayOf h' t' r -> arrayOf h t r \/ length (h_arrs h) <= r).
Proof. intros Hm. apply (shares (tH_without grow t v)); auto. intros P Q Ht. apply safe_tH_without. auto. Qed.

(** Without of an element that is not there allocates nothing, writes nothing and returns the receiver itself. *)
Lemma c53_without_absent (t : ptree) v (h h' : heap (T := T)) : tH_get t v h = (Ok None, h') -> tH_without grow t v h = (Ok t, h).
Proof. apply tH_without_absent. Qed.

(** Get visits at most [maxTreeDepth + 1] nodes: following that many pointers is enough to finish. *)
Lemma c53_get (cs : list (cmd T)) i t p v : nth_error (st_sets (reached grow cs)) i = Some t -> pt_root t = Some p ->
  let h := st_heap (reached grow cs) in
  fst (getH (S maxTreeDepth) p v (newHasher v 0) h) <> Fuel /\ tH_get t v h = getH (S maxTreeDepth) p v (newHasher v 0) h.
Proof.
  intros Hi Hp. cbn zeta. assert (Hd : deep (st_heap (reached grow cs)) p 0) by (eapply levels_sets; eauto; apply reached_levels).
  destruct (getH_levels (S maxTreeDepth) p v 0 (newHasher v 0) _ Hd) as [H1 H2]; [lia|]. split; auto. unfold tH_get. rewrite Hp.
  rewrite <- (H2 (maxTreeDepth + 3)). f_equal. unfold treeFuel. lia.
Qed.

End SpecAlloc.
