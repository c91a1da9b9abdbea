(** * HeapBuilders: what builders hold is right whatever happens to the sets. *)
From Verif Require Import Base Bits Env EnvFacts Node NodeWf NodeAdd NodeRemove Tree TreeFacts.
From Verif Require Import HeapModel HeapFrame HeapOwn HeapRep HeapSim HeapSim2 HeapProg HeapProgSim.
Local Open Scope nat_scope.

Section Builders.
Context {E : Env} {EO : EnvOk E} {T : Type} {K : Key T} {vok : T -> Prop} {KO : KeyOk K vok} (grow : nat -> nat -> nat).
Notation heap := (heap (T := T)).
Notation tree := (tree T).
Local Opaque maxTreeDepth fanout fb.

(** As [related], of the builders alone: sets may have been overwritten. *)
Definition relatedB (st : state) (ps : pstate) : Prop :=
  tagInv st /\ all2 (bldRel (vok := vok) (st_heap st)) (st_builders st) (ps_builders ps).

Lemma relatedB_initial : relatedB initial pinitial.
Proof. split; [apply tagInv_initial|]. apply all2_nil. Qed.

Lemma bldRel_empty h : bldRel (vok := vok) h emptyPT emptyTree.
Proof. exists [], []. split; [constructor|]. split; [constructor|]. split; [constructor|]. split; auto. apply tok_empty. Qed.

Lemma relatedB_change st ps b t u m r : relatedB st ps -> nth_error (st_builders st) b = Some t -> nth_error (ps_builders ps) b = Some u ->
  bldSim (st_heap st) (m (st_heap st)) (Ok r) -> tok vok r ->
  (forall i t, nth_error (st_builders st) i = Some t -> i <> b -> stable (st_heap st) (st_heap (changeBuilder st b m)) t) ->
  all2 (bldRel (vok := vok) (st_heap (changeBuilder st b m))) (st_builders (changeBuilder st b m)) (ps_builders (pchangeBuilder ps b (Ok r))).
Proof.
  intros (Hi & Hb) Ht Hu [Hov Hag] Hr Hst.
  assert (Hh : st_heap (changeBuilder st b m) = snd (m (st_heap st))).
  { unfold changeBuilder. destruct (m (st_heap st)) as [[x| |] h']; reflexivity. }
  rewrite Hh in *. unfold changeBuilder, pchangeBuilder. destruct (m (st_heap st)) as [o h'] eqn:Em. cbn [fst snd] in *.
  destruct Hag as (t' & -> & H1 & L & R & H2 & H3 & H4). cbn. eapply all2_set; [exact Hb| |].
  - exists L, R. auto 10.
  - intros j x y Hj Hx. apply bldRel_stable. eapply Hst; eauto.
Qed.

Lemma makeSet_builders (st : state (T := T)) m : st_builders (makeSet st m) = st_builders st.
Proof. unfold makeSet. destruct (m (st_heap st)) as [[x| |] h']; reflexivity. Qed.
Lemma pmakeSet_builders (ps : pstate (T := T)) r : ps_builders (pmakeSet ps r) = ps_builders ps.
Proof. destruct r; reflexivity. Qed.

Lemma step_builders (st : state (T := T)) c : builderCmd c = false -> st_builders (step grow st c) = st_builders st.
Proof.
  intros Hc. destruct c; try discriminate Hc; cbn [step];
    repeat match goal with |- context [match nth_error ?x ?y with _ => _ end] => destruct (nth_error x y) end;
    auto using makeSet_builders.
Qed.
Lemma pstep_builders (ps : pstate (T := T)) c : builderCmd c = false -> ps_builders (pstep ps c) = ps_builders ps.
Proof.
  intros Hc. destruct c; try discriminate Hc; cbn [pstep];
    repeat match goal with |- context [match nth_error ?x ?y with _ => _ end] => destruct (nth_error x y) end;
    auto using pmakeSet_builders.
Qed.

Theorem relatedB_step st ps c : relatedB st ps -> cmdOk (vok := vok) c -> relatedB (step grow st c) (pstep ps c).
Proof.
  intros Hrel Hok. assert (Hrel' := Hrel). destruct Hrel' as (Hi & Hb).
  destruct (step_tag grow st c Hi) as (Hi' & _ & Hst2). split; auto.
  destruct (builderCmd c) eqn:Ec.
  - destruct c as [|b v|b v|b|s v|s v|f s u|s u|s u|pred s]; try discriminate Ec; cbn [step pstep cmdOk] in *; clear Ec.
    + cbn. apply all2_snoc; auto. apply bldRel_empty.
    + destruct (nth_error (st_builders st) b) as [t|] eqn:Eb; [|rewrite (all2_none _ _ _ _ Hb Eb); auto].
      destruct (all2_nth _ _ _ _ _ Hb Eb) as (w & Ew & Hw). rewrite Ew.
      assert (Hwok : tok vok w) by (destruct Hw as (? & ? & ? & ? & ? & ? & ?); auto).
      destruct (b_add_ok (vok := vok) w v Hwok Hok) as (r & Er & Hr & _). rewrite Er.
      eapply relatedB_change; eauto. rewrite <- Er. apply (bldSim_add (vok := vok)); auto.
    + destruct (nth_error (st_builders st) b) as [t|] eqn:Eb; [|rewrite (all2_none _ _ _ _ Hb Eb); auto].
      destruct (all2_nth _ _ _ _ _ Hb Eb) as (w & Ew & Hw). rewrite Ew.
      assert (Hwok : tok vok w) by (destruct Hw as (? & ? & ? & ? & ? & ? & ?); auto).
      destruct (b_remove_ok (vok := vok) w v Hwok Hok) as (r & Er & Hr & _). rewrite Er.
      eapply relatedB_change; eauto. rewrite <- Er. apply (bldSim_remove (vok := vok)); auto.
    + destruct (nth_error (st_builders st) b) as [t|] eqn:Eb; [|rewrite (all2_none _ _ _ _ Hb Eb); auto].
      destruct (all2_nth _ _ _ _ _ Hb Eb) as (w & Ew & Hw). rewrite Ew. cbn.
      eapply all2_set; [exact Hb|apply bldRel_empty|auto].
  - rewrite step_builders, pstep_builders by auto. eapply all2_imp; [exact Hb|]. intros i a b Ha. apply bldRel_stable.
    eapply Hst2; eauto. destruct c; auto; discriminate.
Qed.

Theorem relatedB_run cs : forall st ps, relatedB st ps -> Forall (cmdOk (vok := vok)) cs -> relatedB (run grow cs st) (prun cs ps).
Proof.
  induction cs as [|c cs IH]; intros st ps Hr Hok; [exact Hr|].
  change (run grow (c :: cs) st) with (run grow cs (step grow st c)). change (prun (c :: cs) ps) with (prun cs (pstep ps c)).
  inversion Hok; subst. apply IH; auto. apply relatedB_step; auto.
Qed.

End Builders.
