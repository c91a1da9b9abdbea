(** * HeapShare: several goroutines using the same sets.

    A configuration is the memory that existed at the start, which all goroutines can reach, and for each goroutine
    its program and the memory it has allocated itself. Goroutines do not communicate, so that no goroutine has a
    pointer into memory allocated by another: addresses below the size of the shared memory are shared, others are of the
    goroutine's own memory. Any goroutine may make the next access ([tick]); accesses are atomic (the theorems show that no
    shared memory is written to, where this makes no difference).

    [shared]: if every program, run alone, writes to no memory that existed at the start, then in every interleaving the
    shared memory stays as it was, and every goroutine ends as if it had run alone. *)
From Verif Require Import Base Bits Env EnvFacts Node NodeWf NodeAdd Tree TreeFacts.
From Verif Require Import HeapModel HeapFrame HeapOwn HeapRep HeapSim HeapSim2 HeapProg HeapProgSim HeapQuiet HeapWrite HeapSteps.
Local Open Scope nat_scope.

Section Share.
Context {T : Type}.
Notation obj := (obj (T := T)).
Notation heap := (heap (T := T)).
Notation array := (array (T := T)).
Notation P := (P (T := T)).
Context {A : Type}.

(** A goroutine: its program, and its own memory (with its own ghost fields). *)
Record thread := mkThread { th_prog : P A; th_own : heap }.
Record conf := mkConf { cf_objs : list obj; cf_arrs : list array; cf_threads : list thread }.

(** The memory a goroutine can reach. *)
Definition view (objs : list obj) (arrs : list array) (own : heap) : heap :=
  mkHeap (objs ++ h_objs own) (arrs ++ h_arrs own) (h_over own) (h_log own).

(** The next access of goroutine [i], if it has not finished. *)
Definition tick (c : conf) (i : nat) : conf :=
  match nth_error (cf_threads c) i with
  | Some (mkThread (Do x k) own) =>
      let '(r, h) := runA x (view (cf_objs c) (cf_arrs c) own) in
      let n := length (cf_objs c) in
      let m := length (cf_arrs c) in
      mkConf (firstn n (h_objs h)) (firstn m (h_arrs h))
        (set_nth (cf_threads c) i (mkThread (k r) (mkHeap (skipn n (h_objs h)) (skipn m (h_arrs h)) (h_over h) (h_log h))))
  | _ => c
  end.
(** The goroutines take turns in any order. *)
Definition interleave (sched : list nat) (c : conf) : conf := fold_left tick sched c.

Definition start (h : heap) (ts : list (P A)) : conf :=
  mkConf (h_objs h) (h_arrs h) (map (fun t => mkThread t (mkHeap [] [] (h_over h) (h_log h))) ts).

(** ** The log grows *)

Lemma runA_log {X} (x : access (T := T) X) h : exists l, h_log (snd (runA x h)) = h_log h ++ l.
Proof.
  destruct x; cbn; try (eexists; reflexivity); try (exists []; rewrite app_nil_r; reflexivity).
  - unfold load. destruct (nth_error _ _); exists []; rewrite app_nil_r; reflexivity.
  - unfold loadArr. destruct (nth_error _ _); exists []; rewrite app_nil_r; reflexivity.
Qed.
Lemma runT_log {X} (t : P X) : forall h, exists l, h_log (snd (runT t h)) = h_log h ++ l.
Proof.
  induction t as [r|Y x k IH]; intros h; [exists []; rewrite app_nil_r; reflexivity|]. cbn. destruct (runA_log x h) as [l1 E1].
  destruct (runA x h) as [r h1]. cbn [snd] in E1. destruct (IH r h1) as [l2 E2]. exists (l1 ++ l2). rewrite E2, E1, app_assoc. reflexivity.
Qed.

(** An access that writes only new memory leaves the old memory as it was. *)
Lemma firstn_set_nth {B} n (l : list B) i x : n <= i -> firstn n (set_nth l i x) = firstn n l.
Proof. revert l i. induction n as [|n IH]; intros [|a l] [|i] H; cbn; auto; try lia. f_equal. apply IH. lia. Qed.

Lemma runA_old {X} (x : access (T := T) X) h n m l : n <= length (h_objs h) -> m <= length (h_arrs h) ->
  h_log (snd (runA x h)) = h_log h ++ l -> Forall (newFrom n m) l ->
  firstn n (h_objs (snd (runA x h))) = firstn n (h_objs h) /\ firstn m (h_arrs (snd (runA x h))) = firstn m (h_arrs h) /\
  n <= length (h_objs (snd (runA x h))) /\ m <= length (h_arrs (snd (runA x h))).
Proof.
  intros Hn Hm E1 HF. destruct x as [o|p|p o|a|r|r i a|j]; cbn in *.
  - rewrite firstn_app, (proj2 (Nat.sub_0_le _ _) Hn), app_nil_r, app_length. cbn. split; auto. split; auto. lia.
  - unfold load in *. destruct (nth_error _ _); cbn; auto.
  - apply app_inv_head in E1. subst l. inversion HF as [|? ? H1 _]; subst. cbn in H1. rewrite firstn_set_nth by auto. rewrite set_nth_length. auto.
  - rewrite firstn_app, (proj2 (Nat.sub_0_le _ _) Hm), app_nil_r, app_length. cbn. split; auto. split; auto. lia.
  - unfold loadArr in *. destruct (nth_error _ _); cbn; auto.
  - apply app_inv_head in E1. subst l. inversion HF as [|? ? H1 _]; subst. assert (m <= r) by (destruct i; exact H1).
    rewrite firstn_set_nth by auto. rewrite set_nth_length. auto.
  - auto.
Qed.

(** ** Every interleaving *)

(** The program, alone from [h], writes only memory that did not exist in [h]. *)
Definition tame (h : heap) (t : P A) : Prop := exists l,
  h_log (snd (runT t h)) = h_log h ++ l /\ Forall (newFrom (length (h_objs h)) (length (h_arrs h))) l.

(** What is left of goroutine [th] will end as [t] would have, alone. *)
Definition onTrack (h : heap) (t : P A) (th : thread) : Prop :=
  let v := view (h_objs h) (h_arrs h) (th_own th) in
  runT (th_prog th) v = runT t h /\ exists l, h_log v = h_log h ++ l.

Definition faithful (h : heap) (ts : list (P A)) (c : conf) : Prop :=
  cf_objs c = h_objs h /\ cf_arrs c = h_arrs h /\ length (cf_threads c) = length ts /\
  forall i t th, nth_error ts i = Some t -> nth_error (cf_threads c) i = Some th -> onTrack h t th.

Lemma start_faithful h ts : faithful h ts (start h ts).
Proof.
  split; [reflexivity|]. split; [reflexivity|]. split; [apply map_length|]. intros i t th Ht Hth. cbn in Hth.
  rewrite nth_error_map, Ht in Hth. injection Hth as <-. split; cbn.
  - unfold view. cbn. rewrite !app_nil_r. destruct h. reflexivity.
  - exists []. rewrite app_nil_r. reflexivity.
Qed.

Lemma view_split h n m :
  view (firstn n (h_objs h)) (firstn m (h_arrs h)) (mkHeap (skipn n (h_objs h)) (skipn m (h_arrs h)) (h_over h) (h_log h)) = h.
Proof. unfold view. cbn. rewrite !firstn_skipn. destruct h. reflexivity. Qed.

Lemma firstn_view {B} (l l' : list B) : firstn (length l) (l ++ l') = l.
Proof. rewrite firstn_app, Nat.sub_diag, firstn_all, firstn_O, app_nil_r. reflexivity. Qed.

Lemma tick_faithful h ts c i : Forall (tame h) ts -> faithful h ts c -> faithful h ts (tick c i).
Proof.
  intros Ht (F1 & F2 & F3 & F4). unfold tick. destruct (nth_error (cf_threads c) i) as [[[r|X x k] own]|] eqn:Ei;
    try (split; [auto|split; [auto|split; auto]]; fail).
  assert (Hi : i < length ts) by (rewrite <- F3; eapply lt_nth; eauto).
  destruct (nth_error ts i) as [t|] eqn:Et; [|apply nth_error_None in Et; lia].
  destruct (F4 i t _ Et Ei) as [R1 [l0 R2]]. cbn [th_prog th_own] in *. rewrite F1, F2.
  assert (Htm : tame h t) by (rewrite Forall_forall in Ht; apply Ht; eapply nth_error_In; eauto). destruct Htm as (lf & L1 & L2).
  set (v := view (h_objs h) (h_arrs h) own) in *. cbn in R1. destruct (runA_log x v) as [l1 E1].
  assert (HO : length (h_objs h) <= length (h_objs v) /\ length (h_arrs h) <= length (h_arrs v)).
  { unfold v, view. cbn. rewrite !app_length. lia. }
  destruct HO as [HO HA].
  assert (HF : Forall (newFrom (length (h_objs h)) (length (h_arrs h))) l1).
  { destruct (runA x v) as [r1 v1] eqn:Ex. cbn [snd] in E1. destruct (runT_log (k r1) v1) as [l2 E2]. rewrite R1, L1, E1, R2 in E2.
    rewrite <- !app_assoc in E2. apply app_inv_head in E2. subst lf. apply Forall_app in L2 as [_ L2]. apply Forall_app in L2. apply L2. }
  destruct (runA_old x v _ _ l1 HO HA E1 HF) as (K1 & K2 & K3 & K4).
  assert (V1 : firstn (length (h_objs h)) (h_objs v) = h_objs h) by apply firstn_view.
  assert (V2 : firstn (length (h_arrs h)) (h_arrs v) = h_arrs h) by apply firstn_view.
  destruct (runA x v) as [r1 v1] eqn:Ex. cbn [fst snd] in *. split; [cbn; congruence|]. split; [cbn; congruence|].
  cbn [cf_threads]. split; [rewrite set_nth_length; auto|]. intros j t' th Ht' Hth. destruct (Nat.eq_dec i j) as [<-|Hne].
  - rewrite nth_error_set_nth_eq in Hth by (rewrite F3; auto). injection Hth as <-. assert (t' = t) by congruence. subst t'.
    unfold onTrack. cbn [th_prog th_own].
    assert (Ev : view (h_objs h) (h_arrs h) (mkHeap (skipn (length (h_objs h)) (h_objs v1)) (skipn (length (h_arrs h)) (h_arrs v1)) (h_over v1) (h_log v1)) = v1).
    { rewrite <- V1 at 1. rewrite <- K1. rewrite <- V2 at 1. rewrite <- K2. apply view_split. }
    rewrite Ev. split; [exact R1|]. exists (l0 ++ l1). rewrite E1, R2, app_assoc. reflexivity.
  - rewrite nth_error_set_nth_ne in Hth by auto. eapply F4; eauto.
Qed.

Theorem shared h ts sched : Forall (tame h) ts -> faithful h ts (interleave sched (start h ts)).
Proof.
  intros Ht. unfold interleave. generalize (start_faithful h ts). generalize (start h ts). induction sched as [|i sched IH]; intros c Hc; [exact Hc|].
  cbn. apply IH. apply tick_faithful; auto.
Qed.

End Share.

(** ** Every goroutine finishes *)

Section Finish.
Context {T : Type}.
Notation heap := (heap (T := T)).
Notation P := (P (T := T)).
Context {A : Type}.

(** The number of accesses of a program run alone. *)
Fixpoint accesses (t : P A) (h : heap) : nat :=
  match t with
  | Done _ => 0
  | Do x k => let '(r, h') := runA x h in S (accesses (k r) h')
  end.

(** The number of accesses goroutine [i] still has to make. *)
Definition remaining (c : conf (A := A)) (i : nat) : nat :=
  match nth_error (cf_threads c) i with
  | Some th => accesses (th_prog th) (view (cf_objs c) (cf_arrs c) (th_own th))
  | None => 0
  end.

Lemma tick_remaining (h : heap) ts c i : Forall (tame h) ts -> faithful h ts c ->
  forall j, remaining (tick c i) j = if Nat.eq_dec i j then pred (remaining c j) else remaining c j.
Proof.
  intros Ht Hf j. assert (Hf' := tick_faithful h ts c i Ht Hf). destruct Hf as (F1 & F2 & F3 & F4), Hf' as (G1 & G2 & G3 & G4).
  unfold remaining. rewrite G1, G2, F1, F2. destruct (Nat.eq_dec i j) as [<-|Hne].
  - unfold tick in *. destruct (nth_error (cf_threads c) i) as [[[r|X x k] own]|] eqn:Ei; cbn [th_prog th_own accesses].
    + rewrite Ei. reflexivity.
    + rewrite F1, F2 in *. destruct (runA x (view (h_objs h) (h_arrs h) own)) as [r1 v1] eqn:Ex. cbn [cf_threads cf_objs cf_arrs] in *.
      rewrite nth_error_set_nth_eq by (eapply lt_nth; eauto). cbn [th_prog th_own]. rewrite <- G1, <- G2 at 1.
      rewrite view_split. reflexivity.
    + rewrite Ei. reflexivity.
  - unfold tick. destruct (nth_error (cf_threads c) i) as [[[r|X x k] own]|]; auto. destruct (runA _ _). cbn [cf_threads].
    rewrite nth_error_set_nth_ne by auto. reflexivity.
Qed.

Lemma interleave_remaining (h : heap) ts sched : Forall (tame h) ts -> forall c i, faithful h ts c ->
  remaining (interleave sched c) i = remaining c i - count_occ Nat.eq_dec sched i.
Proof.
  intros Ht. induction sched as [|j sched IH]; intros c i Hf; [cbn; lia|]. unfold interleave. cbn [fold_left]. fold (interleave sched (tick c j)).
  rewrite IH by (apply tick_faithful; auto). rewrite (tick_remaining h ts) by auto. cbn [count_occ]. destruct (Nat.eq_dec j i); lia.
Qed.

(** A goroutine that has had enough turns has finished, in whatever order the turns came. *)
Theorem finishes (h : heap) ts i t sched : Forall (tame h) ts -> nth_error ts i = Some t -> accesses t h <= count_occ Nat.eq_dec sched i ->
  exists own, nth_error (cf_threads (interleave sched (start h ts))) i = Some (mkThread (Done (fst (runT t h))) own) /\
    view (h_objs h) (h_arrs h) own = snd (runT t h).
Proof.
  intros Ht Hi Hn. assert (R := interleave_remaining h ts sched Ht (start h ts) i (start_faithful h ts)).
  destruct (shared h ts sched Ht) as (F1 & F2 & F3 & F4).
  destruct (nth_error (cf_threads (interleave sched (start h ts))) i) as [[p own]|] eqn:Et.
  2:{ apply nth_error_None in Et. apply lt_nth in Hi. lia. }
  destruct (F4 i t _ Hi Et) as [T1 _]. cbn [th_prog th_own] in T1. exists own.
  assert (Hs : remaining (start h ts) i = accesses t h).
  { unfold remaining, start. cbn. rewrite nth_error_map, Hi. cbn. unfold view. cbn. rewrite !app_nil_r. destruct h; reflexivity. }
  unfold remaining in R at 1. rewrite Et, Hs in R. cbn [th_prog th_own] in R.
  destruct p as [r|X x k].
  - cbn in T1. rewrite <- T1. auto.
  - cbn in R. destruct (runA x _). lia.
Qed.

End Finish.

(** ** Programs of goroutines that start with the same sets *)

Section Guests.
Context {E : Env} {T : Type} {K : Key T} (grow : nat -> nat -> nat).
Local Opaque maxTreeDepth fanout fb.

(** What a goroutine starts with: the sets that exist, no builders. *)
Definition guestHeld (st : state (T := T)) : held := heldIn (guest st, []).
Definition goroutines (st : state (T := T)) (ps : list (list act)) : conf :=
  start (st_heap st) (map (fun l => actsT grow l (guestHeld st)) ps).

Lemma guest_run st l : runT (actsT grow l (guestHeld st)) (st_heap st) =
  (Ok (heldIn (alone grow l (guest st))), st_heap (fst (alone grow l (guest st)))).
Proof. apply (runT_acts grow l (guest st, [])). Qed.

Lemma guest_tame st l :
  fresh (length (h_objs (st_heap st))) (length (h_arrs (st_heap st))) (st_heap st) (st_heap (run grow (commands l) (guest st))) ->
  tame (st_heap st) (actsT grow l (guestHeld st)).
Proof.
  intros (_ & _ & lg & H1 & H2). exists lg. rewrite guest_run. cbn [snd]. unfold alone. rewrite alone_run. auto.
Qed.

Lemma guests_end st ps sched i l : Forall (fun l => tame (st_heap st) (actsT grow l (guestHeld st))) ps -> nth_error ps i = Some l ->
  let c := interleave sched (goroutines st ps) in
  cf_objs c = h_objs (st_heap st) /\ cf_arrs c = h_arrs (st_heap st) /\
  exists th, nth_error (cf_threads c) i = Some th /\
    (accesses (actsT grow l (guestHeld st)) (st_heap st) <= count_occ Nat.eq_dec sched i -> exists r, th_prog th = Done r) /\
    (forall r, th_prog th = Done r -> r = Ok (heldIn (alone grow l (guest st))) /\
       view (cf_objs c) (cf_arrs c) (th_own th) = st_heap (fst (alone grow l (guest st)))).
Proof.
  intros Ht Hi c. set (ts := map (fun l => actsT grow l (guestHeld st)) ps).
  assert (Hts : Forall (tame (st_heap st)) ts) by (apply Forall_map; exact Ht).
  assert (Hit : nth_error ts i = Some (actsT grow l (guestHeld st))) by (unfold ts; rewrite nth_error_map, Hi; reflexivity).
  destruct (shared (st_heap st) ts sched Hts) as (F1 & F2 & F3 & F4). fold c in F1, F2, F3, F4. change (interleave sched (start (st_heap st) ts)) with c in *.
  split; [exact F1|]. split; [exact F2|].
  destruct (nth_error (cf_threads c) i) as [th|] eqn:Eth.
  2:{ apply nth_error_None in Eth. apply lt_nth in Hit. lia. }
  exists th. split; auto. split.
  - intros Hn. destruct (finishes (st_heap st) ts i _ sched Hts Hit Hn) as (own & H1 & _). change (interleave sched (start (st_heap st) ts)) with c in H1.
    rewrite Eth in H1. injection H1 as ->. eexists. reflexivity.
  - intros r Hr. destruct (F4 i _ _ Hit Eth) as [T1 _]. rewrite Hr, guest_run in T1. cbn in T1. rewrite F1, F2. injection T1 as -> ->. auto.
Qed.

End Guests.
