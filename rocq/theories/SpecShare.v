(** * SpecShare: sets used by several goroutines (C52).

    First what one command assigns to ([written]), compared with the memory of the sets that exist ([reachT]); then
    goroutines that start with the same sets and run at the same time, in every interleaving of their accesses to memory
    (HeapShare.v). All statements quantify over the growth policy of append and over the environment. *)
From Verif Require Import Base Bits Env EnvFacts Node NodeWf NodeAdd Tree TreeFacts.
From Verif Require Import HeapModel HeapFrame HeapOwn HeapRep HeapSim HeapSim2 HeapProg HeapProgSim HeapQuiet HeapWrite HeapSteps HeapShare SpecHeap.
Local Open Scope Z_scope.

(** The memory that existed in [st] is as it was. *)
Definition kept {T A : Type} (st : state (T := T)) (c : conf (T := T) (A := A)) : Prop :=
  cf_objs c = h_objs (st_heap st) /\ cf_arrs c = h_arrs (st_heap st).

(** Goroutine [i], if it has finished, holds the sets and builders it would hold if it had run [l] alone from [st], had
    the same answers, and sees the same memory. *)
Definition asAlone {E : Env} {T : Type} {K : Key T} (grow : nat -> nat -> nat) (st : state (T := T)) (l : list act)
    (c : conf (T := T)) (i : nat) : Prop :=
  exists th, nth_error (cf_threads c) i = Some th /\ forall r, th_prog th = Done r ->
    r = Ok (heldIn (alone grow l (guest st))) /\ view (cf_objs c) (cf_arrs c) (th_own th) = st_heap (fst (alone grow l (guest st))).

(** The accesses [l] makes when it runs alone from [st]. *)
Definition work {E : Env} {T : Type} {K : Key T} (grow : nat -> nat -> nat) (st : state (T := T)) (l : list act) : nat :=
  accesses (actsT grow l (guestHeld st)) (st_heap st).
(** Goroutine [i] has finished. *)
Definition finished {T A : Type} (c : conf (T := T) (A := A)) (i : nat) : Prop :=
  exists th r, nth_error (cf_threads c) i = Some th /\ th_prog th = Done r.

(** The same programs on values. *)
Definition pact1 {E : Env} {T : Type} {K : Key T} (x : pstate * list (res (option T))) (a : act) : pstate * list (res (option T)) :=
  match a with
  | ADo c => (pstep (fst x) c, snd x)
  | AGet i v =>
      match nth_error (ps_sets (fst x)) i with
      | Some u => (fst x, snd x ++ [t_get u v])
      | None => x
      end
  end.
Definition palone {E : Env} {T : Type} {K : Key T} (l : list act) (us : list (tree T)) : pstate * list (res (option T)) :=
  fold_left pact1 l (mkPS us [], []).

Section SpecShare.
Context {E : Env} {T : Type} {K : Key T} (grow : nat -> nat -> nat).
Local Opaque maxTreeDepth fanout fb.

(** Builders, whatever happened before, assign to no memory of a set. *)
Lemma c52_builder (cs : list (cmd T)) c i t w : builderCmd c = true -> nth_error (st_sets (reached grow cs)) i = Some t ->
  reachT (st_heap (reached grow cs)) t w -> ~ In w (written (st_heap (reached grow cs)) (st_heap (reached grow (cs ++ [c])))).
Proof.
  intros Hc Ht. rewrite reached_app. cbn [run fold_left]. apply stable_written.
  apply step_tag; [apply run_tag, tagInv_initial|auto|eapply nth_error_In; eauto].
Qed.

(** Nor do Without, Difference, Intersection and Where. *)
Lemma c52_others (cs : list (cmd T)) c i t w : quietCmd c = true -> nth_error (st_sets (reached grow cs)) i = Some t ->
  reachT (st_heap (reached grow cs)) t w -> ~ In w (written (st_heap (reached grow cs)) (st_heap (reached grow (cs ++ [c])))).
Proof.
  intros Hc Ht. rewrite reached_app. cbn [run fold_left]. apply stable_written.
  apply quiet_step; [apply run_tag, tagInv_initial|auto|eapply nth_error_In; eauto].
Qed.

(** No command assigns to memory of a builder it does not name. *)
Lemma c52_builders_apart (cs : list (cmd T)) c b t w : usesBuilder b c = false -> nth_error (st_builders (reached grow cs)) b = Some t ->
  reachT (st_heap (reached grow cs)) t w -> ~ In w (written (st_heap (reached grow cs)) (st_heap (reached grow (cs ++ [c])))).
Proof.
  intros Hc Ht. rewrite reached_app. cbn [run fold_left]. apply stable_written.
  eapply (step_tag grow (reached grow cs) c); [apply run_tag, tagInv_initial|eauto|].
  destruct c; cbn [usesBuilder] in Hc; auto; apply Nat.eqb_neq in Hc; congruence.
Qed.

(** Get assigns to nothing. *)
Lemma c52_get (h : heap (T := T)) t v : snd (tH_get t v h) = h.
Proof. apply tH_get_heap. Qed.

Lemma tame_quiet (cs : list (cmd T)) ps : forallb (fun l => forallb quietCmd (commands l)) ps = true ->
  Forall (fun l => tame (st_heap (reached grow cs)) (actsT grow l (guestHeld (reached grow cs)))) ps.
Proof.
  intros H. apply Forall_forall. intros l Hl. rewrite forallb_forall in H. apply guest_tame.
  apply (run_from grow (length (h_objs (st_heap (reached grow cs)))) (length (h_arrs (st_heap (reached grow cs)))) (commands l) (guest (reached grow cs)));
    [|exact (H l Hl)]. apply guest_from, run_tag, tagInv_initial.
Qed.

(** Goroutines that read shared sets, build new sets, and use Without, Difference, Intersection and Where: in every
    interleaving the shared memory stays as it was, and every goroutine ends as if it were alone. Any hashes. *)
Lemma c52_quiet (cs : list (cmd T)) ps sched i l : forallb (fun l => forallb quietCmd (commands l)) ps = true -> nth_error ps i = Some l ->
  let c := interleave sched (goroutines grow (reached grow cs) ps) in kept (reached grow cs) c /\ asAlone grow (reached grow cs) l c i.
Proof.
  intros H Hl c. destruct (guests_end grow (reached grow cs) ps sched i l (tame_quiet cs ps H) Hl) as (H1 & H2 & th & H3 & _ & H4).
  split; [split; assumption|]. exists th. auto.
Qed.

(** And each of them finishes: as soon as it has had the turns it needs when it is alone. *)
Lemma c52_quiet_ends (cs : list (cmd T)) ps sched i l : forallb (fun l => forallb quietCmd (commands l)) ps = true -> nth_error ps i = Some l ->
  (work grow (reached grow cs) l <= count_occ Nat.eq_dec sched i)%nat -> finished (interleave sched (goroutines grow (reached grow cs) ps)) i.
Proof.
  intros H Hl Hn. destruct (guests_end grow (reached grow cs) ps sched i l (tame_quiet cs ps H) Hl) as (_ & _ & th & H3 & H4 & _).
  destruct (H4 Hn) as [r Hr]. exists th, r. auto.
Qed.

End SpecShare.

Section SpecShareOk.
Context {E : Env} {EO : EnvOk E} {T : Type} {K : Key T} {vok : T -> Prop} {KO : KeyOk K vok} (grow : nat -> nat -> nat).
Local Opaque maxTreeDepth fanout fb.

(** As long as append overwrites no slot that an existing set uses, no command assigns to memory of a set. *)
Lemma c52_no_overwrite (cs : list (cmd T)) c i t w : progOk vok cs -> h_over (st_heap (reached grow (cs ++ [c]))) = 0%nat ->
  nth_error (st_sets (reached grow cs)) i = Some t -> reachT (st_heap (reached grow cs)) t w ->
  ~ In w (written (st_heap (reached grow cs)) (st_heap (reached grow (cs ++ [c])))).
Proof.
  intros Hok Ho Ht Hw. destruct (builderCmd c) eqn:Hc; [eapply c52_builder; eauto|].
  rewrite reached_app in *. cbn [run fold_left] in *. assert (H1 := run_over grow [c] (reached grow cs)). cbn [run fold_left] in H1.
  assert (Ho' : h_over (st_heap (reached grow cs)) = 0%nat) by lia.
  assert (Hr : related (vok := vok) (reached grow cs) (prun cs pinitial)) by (apply related_run; auto; apply related_initial).
  destruct Hr as (_ & Hs & _). destruct (all2_nth _ _ _ _ _ Hs Ht) as (u & _ & Hu).
  destruct (step_spared grow (reached grow cs) c Hc) as (_ & _ & _ & lg & L1 & L2); [congruence|].
  rewrite (written_app _ _ _ L1). intros Hin. rewrite Forall_forall in L2. eapply setRel_reach; eauto.
Qed.

(** Where no three different elements share a hash, commands on sets assign only to memory that did not exist before. *)
Lemma c52_new (cs : list (cmd T)) c w : noTripleHash vok -> progOk vok (cs ++ [c]) -> builderCmd c = false ->
  In w (written (st_heap (reached grow cs)) (st_heap (reached grow (cs ++ [c])))) ->
  newFrom (length (h_objs (st_heap (reached grow cs)))) (length (h_arrs (st_heap (reached grow cs)))) w.
Proof.
  intros Hno Hok Hc. unfold progOk in Hok. apply Forall_app in Hok as [Hok1 Hok2]. inversion Hok2 as [|? ? Hok3 _]; subst.
  destruct (run_still grow (noTripleHash_noTriple Hno) cs initial pinitial (related_initial (vok := vok)) Hok1) as [Hr _]. fold (reached grow cs) in Hr.
  rewrite reached_app. cbn [run fold_left].
  destruct (step_adds grow (noTripleHash_noTriple Hno) _ _ c Hr Hok3 Hc) as (_ & _ & lg & L1 & L2).
  rewrite (written_app _ _ _ L1). intros Hin. rewrite Forall_forall in L2. exact (L2 w Hin).
Qed.

Lemma tame_all (cs : list (cmd T)) ps : noTripleHash vok -> progOk vok cs -> Forall (fun l => progOk vok (commands l)) ps ->
  Forall (fun l => tame (st_heap (reached grow cs)) (actsT grow l (guestHeld (reached grow cs)))) ps.
Proof.
  intros Hno Hok H. apply Forall_forall. intros l Hl. rewrite Forall_forall in H. apply guest_tame.
  destruct (run_still grow (noTripleHash_noTriple Hno) cs initial pinitial (related_initial (vok := vok)) Hok) as [Hr _]. fold (reached grow cs) in Hr.
  apply (run_from_all grow (noTripleHash_noTriple Hno) (length (h_objs (st_heap (reached grow cs)))) (length (h_arrs (st_heap (reached grow cs))))
    (commands l) (guest (reached grow cs)) (mkPS (ps_sets (prun cs pinitial)) [])); [| |exact (H l Hl)].
  - apply guest_from, run_tag, tagInv_initial.
  - apply guest_related, Hr.
Qed.

(** There goroutines may use every operation on the shared sets. *)
Lemma c52_hash (cs : list (cmd T)) ps sched i l : noTripleHash vok -> progOk vok cs -> Forall (fun l => progOk vok (commands l)) ps ->
  nth_error ps i = Some l ->
  let c := interleave sched (goroutines grow (reached grow cs) ps) in kept (reached grow cs) c /\ asAlone grow (reached grow cs) l c i.
Proof.
  intros Hno Hok H Hl c. destruct (guests_end grow (reached grow cs) ps sched i l (tame_all cs ps Hno Hok H) Hl) as (H1 & H2 & th & H3 & _ & H4).
  split; [split; assumption|]. exists th. auto.
Qed.

Lemma c52_hash_ends (cs : list (cmd T)) ps sched i l : noTripleHash vok -> progOk vok cs -> Forall (fun l => progOk vok (commands l)) ps ->
  nth_error ps i = Some l -> (work grow (reached grow cs) l <= count_occ Nat.eq_dec sched i)%nat ->
  finished (interleave sched (goroutines grow (reached grow cs) ps)) i.
Proof.
  intros Hno Hok H Hl Hn. destruct (guests_end grow (reached grow cs) ps sched i l (tame_all cs ps Hno Hok H) Hl) as (_ & _ & th & H3 & H4 & _).
  destruct (H4 Hn) as [r Hr]. exists th, r. auto.
Qed.

Lemma acts_values l : noTripleHash vok -> forall x y, related (vok := vok) (fst x) (fst y) -> snd x = snd y -> progOk vok (commands l) ->
  related (vok := vok) (fst (fold_left (act1 grow) l x)) (fst (fold_left pact1 l y)) /\
  snd (fold_left (act1 grow) l x) = snd (fold_left pact1 l y).
Proof.
  intros Hno. induction l as [|[c|j v] l IH]; intros x y Hr Ha Hok; cbn [fold_left]; auto.
  - cbn [commands flat_map app] in Hok. inversion Hok as [|? ? H1 H2]; subst. apply IH; auto. cbn [act1 pact1 fst].
    apply related_step; auto. eapply step_still; eauto. apply noTripleHash_noTriple; auto.
  - apply IH; [| |exact Hok]; cbn [act1 pact1].
    + destruct (nth_error (st_sets (fst x)) j), (nth_error (ps_sets (fst y)) j); auto.
    + destruct Hr as (Hi & Hs & Hb). destruct (nth_error (st_sets (fst x)) j) as [t|] eqn:Et.
      * destruct (all2_nth _ _ _ _ _ Hs Et) as (u & Hu & H). rewrite Hu. cbn [snd]. rewrite Ha. f_equal. f_equal.
        erewrite tH_get_read by (eapply setRel_read; eauto). reflexivity.
      * destruct (nth_error (ps_sets (fst y)) j) as [u|] eqn:Eu; auto. destruct Hs as [Hs _]. apply nth_error_None in Et. apply lt_nth in Eu. lia.
Qed.

(** And the results are those of the same operations on values, of the goroutine alone: answers, and for every set its value in the memory
    the goroutine sees. *)
Lemma c52_hash_values (cs : list (cmd T)) ps sched i l : noTripleHash vok -> progOk vok cs -> Forall (fun l => progOk vok (commands l)) ps ->
  nth_error ps i = Some l ->
  let c := interleave sched (goroutines grow (reached grow cs) ps) in
  let v := palone l (ps_sets (prun cs pinitial)) in
  exists th, nth_error (cf_threads c) i = Some th /\ forall r, th_prog th = Done r -> exists s, r = Ok s /\
    hd_answers s = snd v /\ length (hd_sets s) = length (ps_sets (fst v)) /\
    forall j t, nth_error (hd_sets s) j = Some t ->
      exists u, nth_error (ps_sets (fst v)) j = Some u /\ readT treeFuel (view (cf_objs c) (cf_arrs c) (th_own th)) t = Some u.
Proof.
  intros Hno Hok H Hl c v. destruct (c52_hash cs ps sched i l Hno Hok H Hl) as (_ & th & H1 & H2). fold c in H1, H2.
  exists th. split; auto. intros r Hr. destruct (H2 r Hr) as [-> Hv]. eexists. split; [reflexivity|].
  destruct (run_still grow (noTripleHash_noTriple Hno) cs initial pinitial (related_initial (vok := vok)) Hok) as [Hr0 _]. fold (reached grow cs) in Hr0.
  destruct (acts_values l Hno (guest (reached grow cs), []) (mkPS (ps_sets (prun cs pinitial)) [], [])) as [V1 V2].
  - cbn [fst]. apply guest_related, Hr0.
  - reflexivity.
  - rewrite Forall_forall in H. apply H. eapply nth_error_In; eauto.
  - rewrite Hv. unfold alone in *. split; [exact V2|]. split; [apply V1|]. intros j t Hj. exact (related_value _ _ _ _ V1 Hj).
Qed.

End SpecShareOk.
