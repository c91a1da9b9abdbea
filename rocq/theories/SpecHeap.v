(** * SpecHeap: builders and sets share the heap (C17, C18).

    All statements quantify over the growth policy of append ([grow]: the new capacity, from the old capacity and the
    length needed; never less than the length needed) and over the environment. *)
From Verif Require Import Base Bits Env EnvFacts Node NodeWf NodeAdd Tree TreeFacts.
From Verif Require Import HeapModel HeapFrame HeapOwn HeapRep HeapSim HeapSim2 HeapProg HeapProgSim HeapBuilders HeapQuiet.
Local Open Scope Z_scope.

(** No three different elements have the same hash. *)
Definition noTripleHash {T : Type} {K : Key T} (vok : T -> Prop) : Prop :=
  forall a b c, vok a -> vok b -> vok c -> veq a b = false -> veq a c = false -> veq b c = false ->
    vhash a 0 = vhash b 0 -> vhash a 0 = vhash c 0 -> False.

(** What programs ask of their elements: they are valid, and functions resolving conflicts keep the key. *)
Definition progOk {T : Type} {K : Key T} (vok : T -> Prop) (cs : list (cmd T)) : Prop := Forall (cmdOk (vok := vok)) cs.

(** The state a program reaches. *)
Definition reached {E : Env} {T : Type} {K : Key T} (grow : nat -> nat -> nat) (cs : list (cmd T)) : state := run grow cs initial.

(** The value of a set (as a tree of Tree.v) in a heap. *)
Definition valueOf {E : Env} {T : Type} (st : state) (t : ptree) (u : tree T) : Prop := readT treeFuel (st_heap st) t = Some u.

Section SpecHeap.
Context {E : Env} {T : Type} {K : Key T} (grow : nat -> nat -> nat).
Local Opaque maxTreeDepth fanout fb.

Lemma reached_app cs cs' : reached grow (cs ++ cs') = run grow cs' (reached grow cs).
Proof. apply run_app. Qed.

(** C17: whatever happened before, builder commands change no set: it reads the same at any depth. *)
Lemma c17_isolated (cs cs' : list (cmd T)) i t :
  forallb builderCmd cs' = true -> nth_error (st_sets (reached grow cs)) i = Some t ->
  nth_error (st_sets (reached grow (cs ++ cs'))) i = Some t /\
  unchanged (st_heap (reached grow cs)) (st_heap (reached grow (cs ++ cs'))) t.
Proof.
  intros Hb Ht. rewrite reached_app. apply builders_isolated; auto. apply run_tag. apply tagInv_initial.
Qed.

(** In particular Get finds the same element (Has is Get not returning nil; the count is in the set value itself). *)
Lemma c17_get (cs cs' : list (cmd T)) i t u v :
  forallb builderCmd cs' = true -> nth_error (st_sets (reached grow cs)) i = Some t -> valueOf (reached grow cs) t u ->
  tH_get t v (st_heap (reached grow cs)) = (t_get u v, st_heap (reached grow cs)) /\
  tH_get t v (st_heap (reached grow (cs ++ cs'))) = (t_get u v, st_heap (reached grow (cs ++ cs'))).
Proof.
  intros Hb Ht Hu. destruct (c17_isolated cs cs' i t Hb Ht) as [_ H]. split; eapply tH_get_read; [exact Hu|]. rewrite H. exact Hu.
Qed.

(** And no command changes a builder it does not name. *)
Lemma c17_builder (cs cs' : list (cmd T)) b t :
  forallb (fun c => negb (usesBuilder b c)) cs' = true -> nth_error (st_builders (reached grow cs)) b = Some t ->
  nth_error (st_builders (reached grow (cs ++ cs'))) b = Some t /\
  unchanged (st_heap (reached grow cs)) (st_heap (reached grow (cs ++ cs'))) t.
Proof.
  intros Hb Ht. rewrite reached_app. apply builder_isolated; auto. apply run_tag. apply tagInv_initial.
Qed.

(** C18 for every command except With and Combine (Union, SymmetricDifference, Merge, Update): no restriction on
    hashes or growth. *)
Lemma c18_others (cs cs' : list (cmd T)) i t :
  forallb quietCmd cs' = true -> nth_error (st_sets (reached grow cs)) i = Some t ->
  nth_error (st_sets (reached grow (cs ++ cs'))) i = Some t /\
  unchanged (st_heap (reached grow cs)) (st_heap (reached grow (cs ++ cs'))) t.
Proof.
  intros Hb Ht. rewrite reached_app. apply quiet_run; auto. apply run_tag. apply tagInv_initial.
Qed.

End SpecHeap.

Section SpecHeapOk.
Context {E : Env} {EO : EnvOk E} {T : Type} {K : Key T} {vok : T -> Prop} {KO : KeyOk K vok} (grow : nat -> nat -> nat).
Local Opaque maxTreeDepth fanout fb.

Lemma related_value st ps i t : related (vok := vok) st ps -> nth_error (st_sets st) i = Some t ->
  exists u, nth_error (ps_sets ps) i = Some u /\ valueOf st t u.
Proof.
  intros (_ & Hs & _) Ht. destruct (all2_nth _ _ _ _ _ Hs Ht) as (u & Hu & H). exists u. split; auto. eapply setRel_read; eauto.
Qed.

(** Commands on builders never touch a slot in use. *)
Lemma builder_still st ps c : related (vok := vok) st ps -> builderCmd c = true -> h_over (st_heap (step grow st c)) = h_over (st_heap st).
Proof.
  intros (Hi & Hs & Hb) Hc.
  assert (HB : forall i t, nth_error (st_builders st) i = Some t -> exists u, bldRel (vok := vok) (st_heap st) t u).
  { intros i t Ht. destruct (all2_nth _ _ _ _ _ Hb Ht) as (u & _ & H). eauto. }
  destruct c as [|b v|b v|b|s v|s v|f s u|s u|s u|pred s]; cbn [step builderCmd] in *; try discriminate; auto;
    (destruct (nth_error (st_builders st) b) as [t|] eqn:Eb; auto; destruct (HB _ _ Eb) as (w & Hw)).
  - eapply still_changeBuilder. apply (bldSim_add (vok := vok)); eauto.
  - eapply still_changeBuilder. apply (bldSim_remove (vok := vok)); eauto.
Qed.
Lemma builder_run cs : forall st ps, related (vok := vok) st ps -> progOk vok cs -> forallb builderCmd cs = true ->
  related (vok := vok) (run grow cs st) (prun cs ps) /\ h_over (st_heap (run grow cs st)) = h_over (st_heap st).
Proof.
  induction cs as [|c cs IH]; intros st ps Hr Hok Hb; [auto|]. cbn [forallb] in Hb. apply andb_prop in Hb as [Hb1 Hb2].
  change (run grow (c :: cs) st) with (run grow cs (step grow st c)). change (prun (c :: cs) ps) with (prun cs (pstep ps c)).
  inversion Hok as [|c' cs' Hc Hcs]; subst. pose proof (builder_still st ps c Hr Hb1) as Ho.
  destruct (IH (step grow st c) (pstep ps c)) as [H1 H2]; auto; [apply related_step; auto|]. split; auto. congruence.
Qed.

(** C17: working in place, builders produce exactly the trees that builders working on values produce. *)
Lemma c17_agree (cs : list (cmd T)) : progOk vok cs -> forallb builderCmd cs = true ->
  length (st_sets (reached grow cs)) = length (ps_sets (prun cs pinitial)) /\
  forall i t, nth_error (st_sets (reached grow cs)) i = Some t ->
    exists u, nth_error (ps_sets (prun cs pinitial)) i = Some u /\ valueOf (reached grow cs) t u.
Proof.
  intros Hok Hb. destruct (builder_run cs initial pinitial (related_initial (vok := vok)) Hok Hb) as [Hr _]. split.
  - apply Hr.
  - intros i t. apply related_value. exact Hr.
Qed.

(** Also in programs that work on sets, even where C18 fails and sets have been overwritten: each builder, and the set made
    of it, holds what it would hold on values. *)
Lemma c17_values (cs : list (cmd T)) : progOk vok cs ->
  length (st_builders (reached grow cs)) = length (ps_builders (prun cs pinitial)) /\
  forall b t, nth_error (st_builders (reached grow cs)) b = Some t ->
    exists u, nth_error (ps_builders (prun cs pinitial)) b = Some u /\ valueOf (reached grow cs) t u /\
      st_sets (reached grow (cs ++ [CFinish b])) = st_sets (reached grow cs) ++ [t] /\
      valueOf (reached grow (cs ++ [CFinish b])) t u.
Proof.
  intros Hok. destruct (relatedB_run grow cs initial pinitial (relatedB_initial (vok := vok)) Hok) as [_ Hb]. fold (reached grow cs) in Hb. split.
  - apply Hb.
  - intros b t Ht. destruct (all2_nth _ _ _ _ _ Hb Ht) as (u & Hu & Hrel). exists u. split; auto.
    assert (Hv : valueOf (reached grow cs) t u) by (eapply setRel_read; apply bldRel_set; exact Hrel).
    rewrite reached_app. cbn [run fold_left step]. rewrite Ht. auto.
Qed.

(** C18 as long as append overwrites no slot that an existing set uses: everything behaves as on values. *)
Lemma c18_no_overwrite (cs cs' : list (cmd T)) i t : progOk vok (cs ++ cs') -> h_over (st_heap (reached grow (cs ++ cs'))) = 0%nat ->
  nth_error (st_sets (reached grow cs)) i = Some t ->
  exists u, nth_error (ps_sets (prun cs pinitial)) i = Some u /\ valueOf (reached grow cs) t u /\ valueOf (reached grow (cs ++ cs')) t u.
Proof.
  intros Hok Ho Ht. unfold progOk in Hok. apply Forall_app in Hok as [Hok1 Hok2]. rewrite reached_app in *.
  assert (H1 := run_over grow cs initial). assert (H2 := run_over grow cs' (reached grow cs)). fold (reached grow cs) in H1.
  assert (Hr : related (vok := vok) (reached grow cs) (prun cs pinitial)).
  { apply related_run; auto; [apply related_initial|]. fold (reached grow cs). cbn in *. lia. }
  destruct (related_value _ _ _ _ Hr Ht) as (u & Hu & Hv). exists u. split; auto. split; auto. unfold valueOf.
  rewrite (run_persist grow (reached grow cs) (prun cs pinitial) cs'); auto; [cbn in *; lia|]. eapply nth_error_In; eauto.
Qed.

(** Then the whole program agrees with the same program on values. *)
Lemma c18_no_overwrite_values (cs : list (cmd T)) : progOk vok cs -> h_over (st_heap (reached grow cs)) = 0%nat ->
  length (st_sets (reached grow cs)) = length (ps_sets (prun cs pinitial)) /\
  forall i t, nth_error (st_sets (reached grow cs)) i = Some t ->
    exists u, nth_error (ps_sets (prun cs pinitial)) i = Some u /\ valueOf (reached grow cs) t u.
Proof.
  intros Hok Ho. assert (Hr : related (vok := vok) (reached grow cs) (prun cs pinitial)).
  { apply related_run; auto. apply related_initial. }
  split; [apply Hr|]. intros i t. apply related_value. exact Hr.
Qed.

Lemma noTripleHash_noTriple : noTripleHash vok -> noTriple (K := K) vok.
Proof.
  intros Hno a b c Ha Hb Hc H1 H2 H3 Hd.
  apply (Hno a b c); auto; apply digits_hash; try (apply (vhash_range (vok := vok)); auto; fail); intros j Hj; apply Hd; auto.
Qed.
Lemma noTripleHash_over (cs : list (cmd T)) : noTripleHash vok -> progOk vok cs -> h_over (st_heap (reached grow cs)) = 0%nat.
Proof.
  intros Hno Hok. destruct (run_still grow (noTripleHash_noTriple Hno) cs initial pinitial (related_initial (vok := vok)) Hok) as [_ H].
  exact H.
Qed.

(** C18 where no three different elements share a hash: all commands, every growth policy. *)
Lemma c18_hash (cs cs' : list (cmd T)) i t : noTripleHash vok -> progOk vok (cs ++ cs') ->
  nth_error (st_sets (reached grow cs)) i = Some t ->
  nth_error (st_sets (reached grow (cs ++ cs'))) i = Some t /\
  exists u, nth_error (ps_sets (prun cs pinitial)) i = Some u /\ valueOf (reached grow cs) t u /\ valueOf (reached grow (cs ++ cs')) t u.
Proof.
  intros Hno Hok Ht. split.
  - rewrite reached_app. apply step_sets_run. auto.
  - apply c18_no_overwrite; auto. apply noTripleHash_over; auto.
Qed.

Lemma c18_hash_values (cs : list (cmd T)) : noTripleHash vok -> progOk vok cs ->
  length (st_sets (reached grow cs)) = length (ps_sets (prun cs pinitial)) /\
  forall i t, nth_error (st_sets (reached grow cs)) i = Some t ->
    exists u, nth_error (ps_sets (prun cs pinitial)) i = Some u /\ valueOf (reached grow cs) t u.
Proof. intros Hno Hok. apply c18_no_overwrite_values; auto. apply noTripleHash_over; auto. Qed.

End SpecHeapOk.
