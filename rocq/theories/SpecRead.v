(** * SpecRead: programs that ask questions and keep iterators while they go on (C69). *)
From Verif Require Import Base Bits Env EnvFacts Node NodeWf Iter Tree TreeFacts.
From Verif Require Import HeapModel HeapProg HeapProgSim HeapQuiet HeapRead HeapReadSim SpecHeap.
Local Open Scope nat_scope.

(** The commands of a program are valid, as long as the answers it gets are; the commands are on builders. *)
Definition sessionOk {T : Type} {K : Key T} (vok : T -> Prop) {A} (s : session (T := T) A) : Prop := allCmds vok (cmdOk (vok := vok)) s.
Definition buildsOnly {T : Type} (vok : T -> Prop) {A} (s : session (T := T) A) : Prop := allCmds vok (fun c => builderCmd c = true) s.
(** All answers, and so the result, of a program that starts with no sets: in shared memory, and with values that cannot change. *)
Definition resultH {E : Env} {T : Type} {K : Key T} (grow : nat -> nat -> nat) {A} (s : session (T := T) A) : A := fst (sessionH grow s initial []).
Definition resultP {E : Env} {T : Type} {K : Key T} {A} (s : session (T := T) A) : A := fst (sessionP s pinitial []).
(** The memory at its end. *)
Definition memoryH {E : Env} {T : Type} {K : Key T} (grow : nat -> nat -> nat) {A} (s : session (T := T) A) : heap := st_heap (fst (snd (sessionH grow s initial []))).
(** The program [s] after the commands [cs]. *)
Definition afterCmds {T : Type} {A} (cs : list (cmd T)) (s : session (T := T) A) : session A := fold_right (fun c k => SDo A c k) s cs.

Section SpecRead.
Context {E : Env} {EO : EnvOk E} {T : Type} {K : Key T} {vok : T -> Prop} {KO : KeyOk K vok} (grow : nat -> nat -> nat).
Local Opaque maxTreeDepth fanout fb.

(** C69: no question, no Next and no Value writes to memory, whatever the state of the program. *)
Lemma c69_reads {B} (q : ask (T := T) B) (st : state) (its : list hiter) : snd (fst (answerH q st its)) = st_heap st.
Proof. apply answer_quiet. Qed.

(** While append overwrites no slot in use, programs cannot tell shared memory from values, with any number of iterators under way. *)
Lemma c69_values {A} (s : session (T := T) A) : sessionOk vok s -> h_over (memoryH grow s) = 0 -> resultH grow s = resultP s.
Proof. intros Hok Ho. apply (session_agree (vok := vok) grow s Hok initial [] pinitial []); auto. apply readRel_initial. Qed.

(** Where no three different elements share a hash, that is so for all programs. *)
Lemma c69_hash {A} (s : session (T := T) A) : noTripleHash vok -> sessionOk vok s -> resultH grow s = resultP s.
Proof.
  intros Hno Hok. apply (session_agree_still (vok := vok) grow (fun _ => True) s) with (its' := []); [| |apply readRel_initial].
  - intros st ps c Hr Hc _. apply (step_still grow (noTripleHash_noTriple Hno) st ps c Hr Hc).
  - unfold sessionOk in Hok. induction s as [a|c s IH|X q s IH]; cbn in *; auto. destruct Hok. auto.
Qed.

(** With builders only, it is so whatever the hashes. *)
Lemma c69_builders {A} (s : session (T := T) A) : sessionOk vok s -> buildsOnly vok s -> resultH grow s = resultP s.
Proof.
  intros Hok Hb. apply (session_agree_still (vok := vok) grow (fun c => builderCmd c = true) s) with (its' := []); [| |apply readRel_initial].
  - intros st ps c Hr _ Hc. eapply builder_still; eauto.
  - unfold sessionOk, buildsOnly in *. induction s as [a|c s IH|X q s IH]; cbn in *; auto. destruct Hok, Hb. auto.
Qed.

(** A loop over a set sees the elements that the set has when the loop begins, each once and in the order of Range, whatever
    the body of the loop does: it can make sets and builders, change builders, and run loops of its own. *)
Lemma after_result {A} (cs : list (cmd T)) (s : session (T := T) A) ps its : sessionP (afterCmds cs s) ps its = sessionP s (prun cs ps) its.
Proof. revert ps. induction cs as [|c cs IH]; intros ps; [reflexivity|]. apply IH. Qed.
Lemma after_ok {A} (cs : list (cmd T)) (s : session (T := T) A) : progOk vok cs -> sessionOk vok s -> sessionOk vok (afterCmds cs s).
Proof. unfold sessionOk. induction 1; cbn; auto. Qed.
Lemma andThen_all P {A B} (s : session (T := T) A) (k : A -> session B) : allCmds vok P s -> (forall a, allCmds vok P (k a)) ->
  allCmds vok P (andThen s k).
Proof. intros Hs Hk. induction s as [x|c s IHs|X q s IHs]; cbn in *; auto. destruct Hs. auto. Qed.
Lemma loop_all P {A} n it (body : T -> A -> session (T := T) A) : (forall v a, vok v -> allCmds vok P (body v a)) ->
  forall seen a, allCmds vok P (forLoop n it body seen a).
Proof.
  intros Hb. induction n as [|n IH]; intros seen a; cbn; auto. intros [[|]| |] _; cbn; auto. intros [v| |] Hv; cbn; auto.
  apply andThen_all; auto.
Qed.
Lemma rangeLoop_all P {A} n i (body : nat -> T -> A -> session (T := T) A) a : (forall it v a, vok v -> allCmds vok P (body it v a)) ->
  allCmds vok P (rangeLoop n i body a).
Proof. intros Hb. unfold rangeLoop. cbn. intros [it| |] _; cbn; auto. apply loop_all. auto. Qed.
Lemma step_tok ps c : cmdOk (vok := vok) c -> (forall u, In u (ps_sets ps ++ ps_builders ps) -> tok vok u) ->
  forall u, In u (ps_sets (pstep (T := T) ps c) ++ ps_builders (pstep ps c)) -> tok vok u.
Proof.
  intros Hok H.
  assert (Hset : forall s t, nth_error (ps_sets ps) s = Some t -> tok vok t).
  { intros s t Hs. apply H. apply in_or_app. left. eapply nth_error_In; eauto. }
  assert (Hbld : forall s t, nth_error (ps_builders ps) s = Some t -> tok vok t).
  { intros s t Hs. apply H. apply in_or_app. right. eapply nth_error_In; eauto. }
  assert (Hmake : forall r, (forall t, r = Ok t -> tok vok t) -> forall u, In u (ps_sets (pmakeSet ps r) ++ ps_builders (pmakeSet ps r)) -> tok vok u).
  { intros [t| |] Hr u; cbn; auto. rewrite <- app_assoc. rewrite !in_app_iff. cbn.
    intros [Hu|[[<-|[]]|Hu]]; auto; apply H; apply in_or_app; auto. }
  assert (HsetIn : forall l b (t u : tree T), In u (set_nth l b t) -> u = t \/ In u l).
  { induction l as [|x l IH]; intros [|b] t u Hu; cbn in *; auto; intuition. apply IH in H0. intuition. }
  assert (Hchange : forall b r, (forall t, r = Ok t -> tok vok t) ->
    forall u, In u (ps_sets (pchangeBuilder ps b r) ++ ps_builders (pchangeBuilder ps b r)) -> tok vok u).
  { intros b [t| |] Hr u; cbn; auto. rewrite in_app_iff. intros [Hu|Hu]; [apply H; apply in_or_app; auto|].
    apply HsetIn in Hu as [->|Hu]; auto. apply H; apply in_or_app; auto. }
  destruct c as [|b v|b v|b|s v|s v|f s u|s u|s u|pred s]; cbn [pstep cmdOk] in *.
  - cbn. intros u. rewrite app_assoc, in_app_iff. cbn. intros [Hu|[<-|[]]]; auto. apply tok_empty.
  - destruct (nth_error (ps_builders ps) b) as [t|] eqn:Eb; auto. apply Hchange. intros x Ex.
    destruct (b_add_ok (vok := vok) t v (Hbld _ _ Eb) Hok) as (r & Er & Hr & _). congruence.
  - destruct (nth_error (ps_builders ps) b) as [t|] eqn:Eb; auto. apply Hchange. intros x Ex.
    destruct (b_remove_ok (vok := vok) t v (Hbld _ _ Eb) Hok) as (r & Er & Hr & _). congruence.
  - destruct (nth_error (ps_builders ps) b) as [t|] eqn:Eb; auto. cbn. intros u. rewrite !in_app_iff. cbn.
    intros [[Hu|[<-|[]]]|Hu]; [apply H; apply in_or_app; auto|eauto|]. apply HsetIn in Hu as [->|Hu]; [apply tok_empty|].
    apply H; apply in_or_app; auto.
  - destruct (nth_error (ps_sets ps) s) as [t|] eqn:Es; auto. apply Hmake. intros x Ex.
    destruct (t_with_ok (vok := vok) t v (Hset _ _ Es) Hok) as (r & Er & Hr & _). congruence.
  - destruct (nth_error (ps_sets ps) s) as [t|] eqn:Es; auto. apply Hmake. intros x Ex.
    destruct (t_without_ok (vok := vok) t v (Hset _ _ Es) Hok) as (r & Er & Hr & _). congruence.
  - destruct (nth_error (ps_sets ps) s) as [t|] eqn:Es; auto. destruct (nth_error (ps_sets ps) u) as [t'|] eqn:Eu; auto. apply Hmake. intros x Ex.
    destruct (t_combine_ok (vok := vok) (combineArgs (t_gauge t) f) t t' (Hset _ _ Es) (Hset _ _ Eu) eq_refl Hok (gaugeOk_new _ EO))
      as [[_ E1]|(_ & r & Er & Hr & _)]; congruence.
  - destruct (nth_error (ps_sets ps) s) as [t|] eqn:Es; auto. destruct (nth_error (ps_sets ps) u) as [t'|] eqn:Eu; auto. apply Hmake. intros x Ex.
    destruct (t_difference_ok (vok := vok) NonParallel t t' (Hset _ _ Es) (Hset _ _ Eu) (gaugeOk_NonParallel EO)) as (r & Er & Hr & _). congruence.
  - destruct (nth_error (ps_sets ps) s) as [t|] eqn:Es; auto. destruct (nth_error (ps_sets ps) u) as [t'|] eqn:Eu; auto. apply Hmake. intros x Ex.
    destruct (t_intersection_ok (vok := vok) (t_gauge t) t t' (Hset _ _ Es) (Hset _ _ Eu) (gaugeOk_new _ EO)) as (r & Er & Hr & _). congruence.
  - destruct (nth_error (ps_sets ps) s) as [t|] eqn:Es; auto. apply Hmake. intros x Ex.
    destruct (t_where_ok (vok := vok) (t_gauge t) pred t (Hset _ _ Es) (gaugeOk_new _ EO)) as (r & Er & Hr & _). congruence.
Qed.
Lemma run_tok (cs : list (cmd T)) : progOk vok cs -> forall ps, (forall u, In u (ps_sets ps ++ ps_builders ps) -> tok vok u) ->
  forall u, In u (ps_sets (prun cs ps) ++ ps_builders (prun cs ps)) -> tok vok u.
Proof.
  induction 1 as [|c cs Hc Hcs IH]; intros ps Hps; [exact Hps|]. change (prun (c :: cs) ps) with (prun cs (pstep ps c)).
  apply IH. apply step_tok; auto.
Qed.
Lemma pure_tok (cs : list (cmd T)) i : progOk vok cs -> tok vok (nth i (ps_sets (prun cs pinitial)) emptyTree).
Proof.
  intros Hok. destruct (Nat.lt_ge_cases i (length (ps_sets (prun cs pinitial)))) as [Hl|Hl].
  - apply (run_tok cs Hok pinitial); [intros u []|]. apply in_or_app. left. apply nth_In. auto.
  - rewrite nth_overflow by auto. apply tok_empty.
Qed.
Lemma loop_values {A} (cs : list (cmd T)) (i n : nat) (body : nat -> T -> A -> session (T := T) A) (a : A) :
  progOk vok cs -> (forall it v a, spares it (body it v a)) ->
  forall l, t_range (nth i (ps_sets (prun cs pinitial)) emptyTree) = Ok l -> length l < n ->
  fst (resultP (afterCmds cs (rangeLoop n i body a))) = l.
Proof.
  intros Hok Hs l Hl Hn. unfold resultP. rewrite after_result. pose proof (pure_tok cs i Hok) as Hu.
  rewrite (t_range_ok _ Hu) in Hl. injection Hl as <-. apply (rangeLoop_seen (vok := vok)); auto.
Qed.
Lemma rangeLoop_ok {A} (cs : list (cmd T)) (i n : nat) (body : nat -> T -> A -> session (T := T) A) (a : A) :
  progOk vok cs -> (forall it v a, vok v -> sessionOk vok (body it v a)) -> sessionOk vok (afterCmds cs (rangeLoop n i body a)).
Proof. intros Hok Hb. apply after_ok; auto. apply rangeLoop_all. auto. Qed.

Lemma c69_loop_values {A} (cs : list (cmd T)) (i n : nat) (body : nat -> T -> A -> session (T := T) A) (a : A) :
  progOk vok cs -> (forall it v a, vok v -> sessionOk vok (body it v a)) -> (forall it v a, spares it (body it v a)) ->
  h_over (memoryH grow (afterCmds cs (rangeLoop n i body a))) = 0 ->
  forall l, t_range (nth i (ps_sets (prun cs pinitial)) emptyTree) = Ok l -> length l < n ->
  fst (resultH grow (afterCmds cs (rangeLoop n i body a))) = l.
Proof. intros Hok Hb Hs Ho l Hl Hn. rewrite c69_values; auto using rangeLoop_ok. apply loop_values; auto. Qed.
Lemma c69_loop_hash {A} (cs : list (cmd T)) (i n : nat) (body : nat -> T -> A -> session (T := T) A) (a : A) :
  noTripleHash vok -> progOk vok cs -> (forall it v a, vok v -> sessionOk vok (body it v a)) -> (forall it v a, spares it (body it v a)) ->
  forall l, t_range (nth i (ps_sets (prun cs pinitial)) emptyTree) = Ok l -> length l < n ->
  fst (resultH grow (afterCmds cs (rangeLoop n i body a))) = l.
Proof. intros Hno Hok Hb Hs l Hl Hn. rewrite c69_hash; auto using rangeLoop_ok. apply loop_values; auto. Qed.
(** With builders only, whatever the hashes. *)
Lemma c69_loop_builders {A} (cs : list (cmd T)) (i n : nat) (body : nat -> T -> A -> session (T := T) A) (a : A) :
  progOk vok cs -> (forall it v a, vok v -> sessionOk vok (body it v a)) -> (forall it v a, spares it (body it v a)) ->
  forallb builderCmd cs = true -> (forall it v a, vok v -> buildsOnly vok (body it v a)) ->
  forall l, t_range (nth i (ps_sets (prun cs pinitial)) emptyTree) = Ok l -> length l < n ->
  fst (resultH grow (afterCmds cs (rangeLoop n i body a))) = l.
Proof.
  intros Hok Hb Hs Hbc Hbb l Hl Hn. rewrite c69_builders; auto using rangeLoop_ok; [apply loop_values; auto|].
  assert (Hafter : forall s : session (list T * A), buildsOnly vok s -> buildsOnly vok (afterCmds cs s)).
  { intros s Hs'. unfold buildsOnly in *. clear - Hbc Hs'. induction cs as [|c cs IH]; cbn in *; auto. apply andb_prop in Hbc as []. auto. }
  apply Hafter. apply rangeLoop_all. auto.
Qed.
End SpecRead.
