(** * Concurrency: the goroutines of [Gauge.Parallel] as interleaved processes.

    Env.v runs the closure of [Gauge.Parallel] atomically, in an order chosen by a scheduler.
    Here the goroutines are modelled one memory access at a time. Every goroutine may be
    stopped between any two of its accesses to shared memory, the parent receives outcomes from
    a buffered channel while the workers run, and workers may themselves start workers.

    Shared memory. The workers of one call of [Parallel] share the captured variables of the
    closure: the packer being built ([mask], a word that is read, or-ed and written back without
    synchronisation, packer.go:38-41, and the array [data]) or the array [results]
    (branch.go:208-213). All workers of one operation also share the field [flipped] of
    [CombineArgs] (nodeArgs.go:40-50), which they test and set without synchronisation.

    Simplifications. Memory is sequentially consistent. The nodes of the operands are never
    written by these operations (HeapModel.v), so work on them is not split into steps.
    Goroutines still running when [Parallel] returns early are dropped: only [Equal] and
    [SubsetOf] return early, and their workers write nothing that is read again. Goroutines.v
    keeps them. *)
From Verif Require Import Base Bits Env EnvFacts.

Section Conc.
(** [A]: what an operation returns; [X]: what a slot holds; [F]: a combining function, the
    content of [flipped]. *)
Context {A X F : Type}.

(** The captured variables: packer.go:9-12, or [results] with an unused mask. *)
Definition shared : Type := (N * list (option X))%type.

(** The accesses of a worker after the nested call of its closure has returned
    (branch.go:97-110, 130-140, 211-215): read [mask], write [mask], write slot [i], send the
    outcome on the channel (gauge.go:62). *)
Inductive wact : Type :=
| WLoadMask (k : N -> wact)
| WStoreMask (m : N) (k : wact)
| WStoreSlot (i : nat) (x : option X) (k : wact)
| WSend (ok : bool) (m : Z).

(** A goroutine: it has returned, has panicked, is about to read or write [flipped], or is in
    [Parallel] (gauge.go:53-71) with workers [ws], captured variables [sh], buffered outcomes
    [ch], [need] outcomes still to receive, [acc] matches so far, and continuation [k].
    A worker (gauge.go:60-63) runs the nested call of the closure ([WRun], [fin] is the rest of
    the closure), does its accesses ([WAct]) or has sent its outcome ([WGone]). *)
Inductive gprog : Type :=
| GRet (a : A)
| GPanic
| GLoad (k : option F -> gprog)
| GStore (f : F) (k : gprog)
| GFork (ws : list worker) (sh : shared) (ch : list (bool * Z)) (need : nat) (acc : Z)
    (k : bool -> Z -> shared -> gprog)
with worker : Type :=
| WRun (g : gprog) (fin : A -> wact)
| WAct (a : wact)
| WGone.

(** What a step of a worker does to the captured variables and the channel. *)
Inductive label : Type :=
| LTau
| LLoad (m : N)
| LMask (m : N)
| LSlot (i : nat) (x : option X)
| LSend (ok : bool) (m : Z).

(** [depth.Fanout], the capacity of the channel (gauge.go:57). *)
Variable chanCap : nat.

Definition effect (l : label) (sh : shared) (ch : list (bool * Z)) (sh' : shared) (ch' : list (bool * Z)) : Prop :=
  match l with
  | LTau => sh' = sh /\ ch' = ch
  | LLoad m => m = fst sh /\ sh' = sh /\ ch' = ch
  | LMask m => sh' = (m, snd sh) /\ ch' = ch
  | LSlot i x => sh' = (fst sh, set_nth (snd sh) i x) /\ ch' = ch
  | LSend ok m => (length ch < chanCap)%nat /\ sh' = sh /\ ch' = ch ++ [(ok, m)]
  end.

(** One step of a goroutine or of a worker, with the content of [flipped] before and after. *)
Inductive gstep : option F -> gprog -> option F -> gprog -> Prop :=
| s_load c k : gstep c (GLoad k) c (k c)
| s_store c f k : gstep c (GStore f k) (Some f) k
| s_worker c ws1 w ws2 l c' w' sh ch sh' ch' need acc k :
    wstep c w l c' w' -> effect l sh ch sh' ch' ->
    gstep c (GFork (ws1 ++ w :: ws2) sh ch need acc k) c' (GFork (ws1 ++ w' :: ws2) sh' ch' need acc k)
| s_recv c ws sh m ch need acc k :
    gstep c (GFork ws sh ((true, m) :: ch) (S need) acc k) c (GFork ws sh ch need (acc + m)%Z k)
| s_stop c ws sh m ch need acc k :
    gstep c (GFork ws sh ((false, m) :: ch) (S need) acc k) c (k false acc sh)
| s_done c ws sh ch acc k :
    gstep c (GFork ws sh ch 0 acc k) c (k true acc sh)
with wstep : option F -> worker -> label -> option F -> worker -> Prop :=
| w_run c g c' g' fin : gstep c g c' g' -> wstep c (WRun g fin) LTau c' (WRun g' fin)
| w_ret c a fin : wstep c (WRun (GRet a) fin) LTau c (WAct (fin a))
| w_load c m k : wstep c (WAct (WLoadMask k)) (LLoad m) c (WAct (k m))
| w_mask c m k : wstep c (WAct (WStoreMask m k)) (LMask m) c (WAct k)
| w_slot c i x k : wstep c (WAct (WStoreSlot i x k)) (LSlot i x) c (WAct k)
| w_send c ok m : wstep c (WAct (WSend ok m)) (LSend ok m) c WGone.

(** A panic in any goroutine ends the program. *)
Inductive crashed : gprog -> Prop :=
| crashed_here : crashed GPanic
| crashed_worker ws sh ch need acc k g fin :
    In (WRun g fin) ws -> crashed g -> crashed (GFork ws sh ch need acc k).

Definition wcrashed (w : worker) : Prop :=
  match w with WRun g _ => crashed g | _ => False end.

(** Any number of steps; the program ends with the first panic. *)
Inductive runs : option F -> gprog -> option F -> gprog -> Prop :=
| runs_refl c g : runs c g c g
| runs_step c g c1 g1 c2 g2 : ~ crashed g -> gstep c g c1 g1 -> runs c1 g1 c2 g2 -> runs c g c2 g2.

(** Sequential composition: the caller goes on with the result. *)
Fixpoint gbind (g : gprog) (f : A -> gprog) : gprog :=
  match g with
  | GRet a => f a
  | GPanic => GPanic
  | GLoad k => GLoad (fun o => gbind (k o) f)
  | GStore x k => GStore x (gbind k f)
  | GFork ws sh ch need acc k => GFork ws sh ch need acc (fun b z s => gbind (k b z s) f)
  end.

(** The accesses of a worker, run without interruption: sequential mode (gauge.go:73-80). *)
Fixpoint runActs (a : wact) (sh : shared) : bool * Z * shared :=
  match a with
  | WLoadMask k => runActs (k (fst sh)) sh
  | WStoreMask m k => runActs k (m, snd sh)
  | WStoreSlot i x k => runActs k (fst sh, set_nth (snd sh) i x)
  | WSend ok m => (ok, m, sh)
  end.

(** gauge.go:73-80: the closures run one after the other in the goroutine of the caller. *)
Fixpoint seqLoop (w : nat -> worker) (order : list nat) (acc : Z) (sh : shared)
    (k : bool -> Z -> shared -> gprog) : gprog :=
  match order with
  | [] => k true acc sh
  | i :: order' =>
      let go (a : wact) :=
        let '(ok, m, sh') := runActs a sh in
        if ok then seqLoop w order' (acc + m) sh' k else k false acc sh' in
      match w i with
      | WRun g fin => gbind g (fun r => go (fin r))
      | WAct a => go a
      | WGone => GPanic
      end
  end.

(** gauge.go:51-84 [Parallel]: [w i] is the worker of slot [i]. *)
Definition forkOrLoop (limit : Z) (depth : nat) (mask : N) (w : nat -> worker) (sh : shared)
    (k : bool -> Z -> shared -> gprog) : gprog :=
  if (Z.of_nat depth <? limit)%Z
  then GFork (map w (mask_indices mask)) sh [] (length (mask_indices mask)) 0 k
  else seqLoop w (mask_indices mask) 0 sh k.

(** ** Every run ends with the same result *)

(** How the other goroutines may change [flipped]. *)
Variable rely : option F -> option F -> Prop.
Hypothesis rely_refl : forall c, rely c c.
Hypothesis rely_trans : forall c1 c2 c3, rely c1 c2 -> rely c2 c3 -> rely c1 c3.

(** However the steps are interleaved, and however other goroutines change [flipped] as allowed
    by [rely], the goroutine never panics, never blocks, changes [flipped] only as allowed by
    [rely], ends after finitely many of its steps, and ends with [r]. *)
Inductive Yields (r : A) : option F -> gprog -> Prop :=
| yields_intro c g :
    ~ crashed g ->
    (g = GRet r \/ ((forall a, g <> GRet a) /\ forall c1, rely c c1 -> exists c' g', gstep c1 g c' g')) ->
    (forall c1 c' g', rely c c1 -> gstep c1 g c' g' -> rely c1 c') ->
    (forall c1 c' g', rely c c1 -> gstep c1 g c' g' -> Yields r c' g') ->
    Yields r c g.

(** The job of a worker: its slot, what it leaves there, and the outcome it sends. *)
Record job := mkJob { j_slot : nat; j_val : option X; j_ok : bool; j_matches : Z }.

Definition isSlot (l : label) : bool := match l with LSlot _ _ => true | _ => false end.
Definition labelOk (j : job) (l : label) : Prop :=
  match l with
  | LSlot i x => i = j_slot j /\ x = j_val j
  | LSend ok m => ok = j_ok j /\ m = j_matches j
  | _ => True
  end.

(** The worker does the job; [b] says whether it has written its slot. *)
Inductive Works (j : job) : bool -> option F -> worker -> Prop :=
| works_intro b c w :
    ~ wcrashed w ->
    (w = WGone -> b = true \/ j_val j = None) ->
    (w <> WGone -> forall c1 m, rely c c1 -> exists l c' w', wstep c1 w l c' w' /\
        (forall m', l = LLoad m' -> m' = m)) ->
    (forall c1 l c' w', rely c c1 -> wstep c1 w l c' w' -> rely c1 c' /\ labelOk j l) ->
    (forall c1 l c' w', rely c c1 -> wstep c1 w l c' w' -> Works j (b || isSlot l) c' w') ->
    Works j b c w.

Lemma yields_ret r c : Yields r c (GRet r).
Proof.
  constructor; auto.
  - intros H. inversion H.
  - intros c1 c' g' _ H. inversion H.
  - intros c1 c' g' _ H. inversion H.
Qed.

Lemma yields_load r c k :
  (forall c1, rely c c1 -> Yields r c1 (k c1)) -> Yields r c (GLoad k).
Proof.
  intros H. constructor.
  - intros Hc. inversion Hc.
  - right. split; [discriminate|]. intros c1 _. eexists _, _. apply s_load.
  - intros c1 c' g' Hc Hs. inversion Hs; subst. auto.
  - intros c1 c' g' Hc Hs. inversion Hs; subst. auto.
Qed.

Lemma yields_store r c f k :
  (forall c1, rely c c1 -> rely c1 (Some f)) -> Yields r (Some f) k -> Yields r c (GStore f k).
Proof.
  intros Hf H. constructor.
  - intros Hc. inversion Hc.
  - right. split; [discriminate|]. intros c1 _. eexists _, _. apply s_store.
  - intros c1 c' g' Hc Hs. inversion Hs; subst. auto.
  - intros c1 c' g' Hc Hs. inversion Hs; subst. auto.
Qed.

Lemma yields_mono r c c' g : Yields r c g -> rely c c' -> Yields r c' g.
Proof.
  intros H Hr. inversion H as [? ? H1 H2 H3 H4]; subst. constructor; eauto.
  destruct H2 as [H2|[H2 H5]]; auto. right. split; eauto.
Qed.

Lemma works_mono j b c c' w : Works j b c w -> rely c c' -> Works j b c' w.
Proof. intros H Hr. inversion H as [? ? ? H1 H2 H3 H4 H5]; subst. constructor; eauto. Qed.

(** ** Composition *)

Lemma gbind_step c g f c' g' :
  (forall a, g <> GRet a) -> gstep c (gbind g f) c' g' ->
  exists g1, gstep c g c' g1 /\ g' = gbind g1 f.
Proof.
  intros Hn H. destruct g as [a| |k|x k|ws sh ch need acc k]; simpl in H.
  - exfalso. apply (Hn a). reflexivity.
  - inversion H.
  - inversion H; subst. eexists. split; [apply s_load|reflexivity].
  - inversion H; subst. eexists. split; [apply s_store|reflexivity].
  - inversion H; subst.
    + eexists. split; [eapply s_worker; eauto|reflexivity].
    + eexists. split; [apply s_recv|reflexivity].
    + eexists. split; [apply s_stop|reflexivity].
    + eexists. split; [apply s_done|reflexivity].
Qed.

Lemma gbind_step_back c g f c' g1 :
  gstep c g c' g1 -> gstep c (gbind g f) c' (gbind g1 f).
Proof.
  intros H. inversion H; subst; simpl.
  - apply (s_load c' (fun o => gbind (k o) f)).
  - apply s_store.
  - eapply s_worker; eauto.
  - apply s_recv.
  - apply (s_stop _ _ _ _ _ _ _ (fun b z s => gbind (k b z s) f)).
  - apply (s_done _ _ _ _ _ (fun b z s => gbind (k b z s) f)).
Qed.

Lemma gbind_crashed g f : (forall a, g <> GRet a) -> crashed (gbind g f) -> crashed g.
Proof.
  intros Hn H. destruct g as [a| |k|x k|ws sh ch need acc k]; simpl in H.
  - exfalso. apply (Hn a). reflexivity.
  - constructor.
  - inversion H.
  - inversion H.
  - inversion H; subst. eapply crashed_worker; eauto.
Qed.

Lemma gret_dec g : (exists a, g = GRet a) \/ (forall a, g <> GRet a).
Proof. destruct g; [left; eauto|right; discriminate..]. Qed.

Lemma yields_bind r f r' : forall c g, Yields r c g -> (forall c1, rely c c1 -> Yields r' c1 (f r)) ->
  Yields r' c (gbind g f).
Proof.
  intros c g H. induction H as [c g Hc Hp Hk Hs IH]. intros Hf.
  destruct (gret_dec g) as [(a & ->)|Hn].
  - destruct Hp as [Hp|[Hp _]]; [inversion Hp; subst; apply Hf; auto|]. exfalso. apply (Hp a); auto.
  - constructor.
    + intros H. apply Hc. eapply gbind_crashed; eauto.
    + right. destruct Hp as [->|[_ Hp]]; [exfalso; apply (Hn r); auto|]. split.
      * intros a Ha. destruct g; simpl in Ha; try discriminate. apply (Hn a0); auto.
      * intros c1 Hok. destruct (Hp c1 Hok) as (c' & g' & Hst).
        eexists _, _. apply gbind_step_back. eauto.
    + intros c1 c' g' Hok Hst. apply gbind_step in Hst as (g1 & Hst & ->); auto. eapply Hk; eauto.
    + intros c1 c' g' Hok Hst. apply gbind_step in Hst as (g1 & Hst & ->); auto. eapply IH; eauto 7.
Qed.

(** ** Workers *)

(** The accesses of [a] do the job. *)
Fixpoint actsOk (j : job) (b : bool) (a : wact) : Prop :=
  match a with
  | WLoadMask k => forall m, actsOk j b (k m)
  | WStoreMask _ k => actsOk j b k
  | WStoreSlot i x k => i = j_slot j /\ x = j_val j /\ actsOk j true k
  | WSend ok m => ok = j_ok j /\ m = j_matches j /\ (b = true \/ j_val j = None)
  end.

Lemma works_gone j b c : b = true \/ j_val j = None -> Works j b c WGone.
Proof.
  intros H. constructor; auto.
  - congruence.
  - intros c1 l c' w' _ Hs. inversion Hs.
  - intros c1 l c' w' _ Hs. inversion Hs.
Qed.

Lemma works_act j a : forall b c, actsOk j b a -> Works j b c (WAct a).
Proof.
  induction a as [k IH|m k IH|i x k IH|ok m]; intros b c H; cbn [actsOk] in H; constructor;
    try (intros E; discriminate E); try (intros E; exact E).
  - intros _ c1 m Hc. eexists _, _, _. split; [apply (w_load _ m)|]. intros m' E; congruence.
  - intros c1 l c' w' Hc Hs. inversion Hs; subst. split; simpl; auto.
  - intros c1 l c' w' Hc Hs. inversion Hs; subst. simpl. rewrite orb_false_r. auto.
  - intros _ c1 m' Hc. eexists _, _, _. split; [apply w_mask|]. discriminate.
  - intros c1 l c' w' Hc Hs. inversion Hs; subst. split; simpl; auto.
  - intros c1 l c' w' Hc Hs. inversion Hs; subst. simpl. rewrite orb_false_r. auto.
  - intros _ c1 m' Hc. eexists _, _, _. split; [apply w_slot|]. discriminate.
  - intros c1 l c' w' Hc Hs. inversion Hs; subst. destruct H as (-> & -> & H). split; simpl; auto.
  - intros c1 l c' w' Hc Hs. inversion Hs; subst. simpl. rewrite orb_true_r. apply IH. apply H.
  - intros _ c1 m' Hc. eexists _, _, _. split; [apply w_send|]. discriminate.
  - intros c1 l c' w' Hc Hs. inversion Hs; subst. destruct H as (-> & -> & H). split; simpl; auto.
  - intros c1 l c' w' Hc Hs. inversion Hs; subst. simpl. rewrite orb_false_r. apply works_gone. apply H.
Qed.

Lemma works_run j r fin : forall c g, Yields r c g -> actsOk j false (fin r) -> Works j false c (WRun g fin).
Proof.
  intros c g H Ha. induction H as [c g Hc Hp Hk Hs IH]. constructor.
  - exact Hc.
  - discriminate.
  - intros _ c1 m Hok. destruct Hp as [->|[_ Hp]].
    + eexists _, _, _. split; [apply w_ret|]. discriminate.
    + destruct (Hp c1 Hok) as (c' & g' & Hst). eexists _, _, _. split; [apply w_run; eauto|]. discriminate.
  - intros c1 l c' w' Hok Hst. inversion Hst; subst; split; simpl; eauto.
  - intros c1 l c' w' Hok Hst. inversion Hst; subst; simpl.
    + eapply IH; eauto.
    + destruct Hp as [Hp|[Hp _]]; [inversion Hp; subst|exfalso; eapply Hp; eauto].
      apply works_act; auto.
Qed.

(** ** Finitely many workers in parallel *)

(** A worker with its job, whether the slot is written, and [flipped] after its last step. *)
Definition gw : Type := (job * (bool * option F) * worker)%type.
Definition gwOk (g : gw) : Prop := Works (fst (fst g)) (fst (snd (fst g))) (snd (snd (fst g))) (snd g).
Inductive gwStep : gw -> gw -> Prop :=
| gw_step j b c w c1 l c' w' : rely c c1 -> wstep c1 w l c' w' ->
    gwStep (j, (b || isSlot l, c'), w') (j, (b, c), w).

Lemma works_acc j b c w : Works j b c w -> Acc gwStep (j, (b, c), w).
Proof.
  induction 1 as [b c w _ _ _ _ Hs IH]. constructor. intros y Hy. inversion Hy; subst. eapply IH; eauto.
Qed.

Inductive gwsStep : list gw -> list gw -> Prop :=
| gws_step l1 g l2 g' : gwStep g' g -> gwsStep (l1 ++ g' :: l2) (l1 ++ g :: l2).

Lemma gws_acc l : Forall (Acc gwStep) l -> Acc gwsStep l.
Proof.
  induction 1 as [|g l Hg _ IH].
  - constructor. intros y Hy. inversion Hy. destruct l1; discriminate.
  - revert l IH. induction Hg as [g _ IHg]. intros l Hl. induction Hl as [l Hl0 IHl].
    constructor. intros y Hy. inversion Hy as [l1 g1 l2 g2 Hst E1 E2]; subst.
    destruct l1 as [|g0 l1]; simpl in E2; inversion E2; subst; simpl.
    + apply IHg; auto. constructor. exact Hl0.
    + apply IHl. constructor; auto.
Qed.

Definition jobs (l : list gw) : list job := map (fun g => fst (fst g)) l.
Definition isGone (w : worker) : bool := match w with WGone => true | _ => false end.
Definition outOf (j : job) : bool * Z := (j_ok j, j_matches j).
Definition goneOuts (l : list gw) : list (bool * Z) :=
  map (fun g => outOf (fst (fst g))) (filter (fun g => isGone (snd g)) l).

(** The state of a call of [Parallel] with [len] slots; [c] is the content of [flipped]. *)
Record ForkOk (len : nat) (c : option F) (l : list gw) (sh : shared) (ch : list (bool * Z)) (need : nat) (acc : Z) : Prop := {
  fo_works : Forall gwOk l;
  fo_nodup : NoDup (map j_slot (jobs l));
  fo_len : length (snd sh) = len;
  fo_lt : forall j, In j (jobs l) -> j_slot j < len;
  fo_cell : forall j b c0 w, In (j, (b, c0), w) l -> rely c0 c;
  fo_slot : forall j b c0 w, In (j, (b, c0), w) l -> nth (j_slot j) (snd sh) None = (if b then j_val j else None);
  fo_other : forall i, ~ In i (map j_slot (jobs l)) -> nth i (snd sh) None = None;
  fo_out : exists rcv, Permutation (goneOuts l) (rcv ++ ch) /\ acc = sumZ (map snd rcv) /\
             (forall o, In o rcv -> fst o = true) /\ need + length rcv = length l;
}.

Lemma goneOuts_app l1 g l2 : goneOuts (l1 ++ g :: l2) =
  goneOuts l1 ++ (if isGone (snd g) then [outOf (fst (fst g))] else []) ++ goneOuts l2.
Proof.
  unfold goneOuts. rewrite filter_app, map_app. simpl. destruct (isGone (snd g)); reflexivity.
Qed.

Lemma goneOuts_length l : length (goneOuts l) <= length l.
Proof.
  unfold goneOuts. rewrite map_length. induction l as [|g l IH]; simpl; auto.
  destruct (isGone (snd g)); simpl; lia.
Qed.

Lemma goneOuts_full l : length (goneOuts l) = length l ->
  (forall g, In g l -> snd g = WGone) /\ goneOuts l = map outOf (jobs l).
Proof.
  induction l as [|g l IH]; simpl.
  - intros _. split; [intros g []|reflexivity].
  - unfold goneOuts in *. simpl. pose proof (goneOuts_length l) as Hl. unfold goneOuts in Hl.
    destruct g as [[j b] w]. simpl in *. destruct w as [? ?|?|]; simpl; try lia.
    intros H. destruct IH as [IH1 IH2]; [lia|]. split.
    + intros g [<-|Hg]; auto.
    + rewrite IH2. reflexivity.
Qed.

Lemma wstep_notgone c w l c' w' : wstep c w l c' w' -> isGone w = false.
Proof. intros H. inversion H; reflexivity. Qed.

Lemma wstep_gone c w l c' w' : wstep c w l c' w' -> isGone w' = match l with LSend _ _ => true | _ => false end.
Proof. intros H. inversion H; reflexivity. Qed.

(** A step of one worker preserves the state. *)
Lemma forkOk_worker len c l1 j b c0 w l2 sh ch need acc c1 l c' w' sh' ch' :
  ForkOk len c (l1 ++ (j, (b, c0), w) :: l2) sh ch need acc ->
  rely c c1 -> wstep c1 w l c' w' -> effect l sh ch sh' ch' ->
  ForkOk len c' (l1 ++ (j, (b || isSlot l, c'), w') :: l2) sh' ch' need acc.
Proof.
  intros H Hc Hst He. destruct H as [Hw Hnd Hlen Hlt Hcell Hsl Hot (rcv & Hout & Hacc & Hrok & Hneed)].
  assert (Hj : jobs (l1 ++ (j, (b || isSlot l, c'), w') :: l2) = jobs (l1 ++ (j, (b, c0), w) :: l2)).
  { unfold jobs. rewrite !map_app. reflexivity. }
  assert (Hwj : Works j b c0 w).
  { rewrite Forall_forall in Hw. apply (Hw (j, (b, c0), w)). apply in_or_app. right; left; auto. }
  assert (Hc0 : rely c0 c1).
  { apply rely_trans with c; auto. apply (Hcell j b c0 w). apply in_or_app. right; left; auto. }
  inversion Hwj as [b0 c2 w0 Hncr Hgone Hprog Hlab Hnext]; subst b0 c2 w0.
  destruct (Hlab _ _ _ _ Hc0 Hst) as [Hc' Hlok].
  (* the job of every other worker is about another slot *)
  assert (Hoth : forall j' b' w0, In (j', b', w0) (l1 ++ l2) -> j_slot j' <> j_slot j).
  { intros j' b' w0 Hin E. unfold jobs in Hnd. rewrite !map_app in Hnd. simpl in Hnd.
    apply NoDup_remove_2 in Hnd. apply Hnd. rewrite <- E, <- !map_app.
    apply in_map. apply (in_map (fun g => fst (fst g))) in Hin. exact Hin. }
  assert (Hin' : forall j' b' w0, In (j', b', w0) (l1 ++ (j, (b || isSlot l, c'), w') :: l2) ->
            (j', b', w0) = (j, (b || isSlot l, c'), w') \/ In (j', b', w0) (l1 ++ l2)).
  { intros j' b' w0 Hin. apply in_app_or in Hin as [Hin|[Hin|Hin]];
      [right; apply in_or_app; auto|left; auto|right; apply in_or_app; auto]. }
  assert (Hold : forall j' b' w0, In (j', b', w0) (l1 ++ l2) -> In (j', b', w0) (l1 ++ (j, (b, c0), w) :: l2)).
  { intros j' b' w0 Hin. apply in_app_or in Hin as [Hin|Hin]; apply in_or_app; auto. right; right; auto. }
  assert (Hself : nth (j_slot j) (snd sh) None = if b then j_val j else None).
  { apply (Hsl j b c0 w). apply in_or_app. right; left; auto. }
  assert (Hjl : j_slot j < len).
  { apply Hlt. unfold jobs. rewrite map_app. apply in_or_app. right; left; auto. }
  assert (Hgo : Permutation (goneOuts (l1 ++ (j, (b || isSlot l, c'), w') :: l2))
                            (goneOuts (l1 ++ (j, (b, c0), w) :: l2) ++
                             match l with LSend _ _ => [outOf j] | _ => [] end)).
  { rewrite !goneOuts_app. simpl. rewrite (wstep_notgone _ _ _ _ _ Hst), (wstep_gone _ _ _ _ _ Hst).
    destruct l; simpl; rewrite ?app_nil_r; auto.
    rewrite <- app_assoc. apply Permutation_app_head.
    change (outOf j :: goneOuts l2) with ([outOf j] ++ goneOuts l2). apply Permutation_app_comm. }
  constructor.
  - apply Forall_forall. intros [[j' b'] w0] Hin. apply Hin' in Hin as [E|Hin].
    + inversion E; subst j' b' w0. unfold gwOk. simpl. exact (Hnext _ _ _ _ Hc0 Hst).
    + rewrite Forall_forall in Hw. apply Hw. auto.
  - rewrite Hj. exact Hnd.
  - rewrite <- Hlen. destruct l; simpl in He; destruct He as (He1 & He2); try destruct He2 as (He2 & He3); subst sh'; simpl; auto.
    apply set_nth_length.
  - rewrite Hj. exact Hlt.
  - intros j' b' c2 w0 Hin. apply Hin' in Hin as [E|Hin].
    + inversion E; subst. apply rely_refl.
    + apply rely_trans with c1; auto. apply rely_trans with c; auto. eapply Hcell. apply Hold. exact Hin.
  - intros j' b' c2 w0 Hin. apply Hin' in Hin as [E|Hin].
    + inversion E; subst j' b' c2 w0. destruct l; simpl in *; rewrite ?orb_false_r, ?orb_true_r.
      * destruct He as (-> & _). exact Hself.
      * destruct He as (_ & -> & _). exact Hself.
      * destruct He as (-> & _). exact Hself.
      * destruct He as (-> & _). destruct Hlok as (-> & ->). simpl. apply nth_set_nth_eq. lia.
      * destruct He as (_ & -> & _). exact Hself.
    + pose proof (Hsl _ _ _ _ (Hold _ _ _ Hin)) as E. pose proof (Hoth _ _ _ Hin) as Hne.
      destruct l; simpl in *.
      * destruct He as (-> & _). exact E.
      * destruct He as (_ & -> & _). exact E.
      * destruct He as (-> & _). exact E.
      * destruct He as (-> & _). destruct Hlok as (-> & ->). simpl. rewrite nth_set_nth_ne by auto. exact E.
      * destruct He as (_ & -> & _). exact E.
  - intros i Hi. rewrite Hj in Hi. pose proof (Hot i Hi) as E.
    destruct l; simpl in *.
    + destruct He as (-> & _). exact E.
    + destruct He as (_ & -> & _). exact E.
    + destruct He as (-> & _). exact E.
    + destruct He as (-> & _). destruct Hlok as (-> & ->). simpl. rewrite nth_set_nth_ne; [exact E|].
      intros <-. apply Hi. unfold jobs. rewrite !map_app. apply in_or_app. right; left; auto.
    + destruct He as (_ & -> & _). exact E.
  - exists rcv. rewrite app_length in *. simpl in *. split; [|auto].
    eapply Permutation_trans; [exact Hgo|]. destruct l; simpl in He.
    + destruct He as (_ & ->). rewrite app_nil_r. exact Hout.
    + destruct He as (_ & _ & ->). rewrite app_nil_r. exact Hout.
    + destruct He as (_ & ->). rewrite app_nil_r. exact Hout.
    + destruct He as (_ & ->). rewrite app_nil_r. exact Hout.
    + destruct He as (_ & _ & ->). simpl in Hlok. destruct Hlok as (-> & ->).
      rewrite app_assoc. apply Permutation_app; auto.
Qed.

Lemma forkOk_recv len c c1 l sh m ch need acc :
  ForkOk len c l sh ((true, m) :: ch) (S need) acc -> rely c c1 -> ForkOk len c1 l sh ch need (acc + m)%Z.
Proof.
  intros [Hw Hnd Hlen Hlt Hcell Hsl Hot (rcv & Hout & Hacc & Hrok & Hneed)] Hc. constructor; auto.
  - intros j b c0 w Hin. eapply rely_trans; eauto.
  - exists (rcv ++ [(true, m)]). split; [|split; [|split]].
    + rewrite <- app_assoc. exact Hout.
    + rewrite map_app, sumZ_app. simpl. lia.
    + intros o Ho. apply in_app_or in Ho as [Ho|[<-|[]]]; auto.
    + rewrite app_length. simpl. lia.
Qed.

(** The slots once every worker has done its job. *)
Definition Filled (len : nat) (js : list job) (slots : list (option X)) : Prop :=
  length slots = len /\
  (forall j, In j js -> nth (j_slot j) slots None = j_val j) /\
  (forall i, ~ In i (map j_slot js) -> nth i slots None = None).

Lemma forkOk_done len c l sh ch acc :
  ForkOk len c l sh ch 0 acc ->
  Filled len (jobs l) (snd sh) /\ (forall j, In j (jobs l) -> j_ok j = true) /\
  acc = sumZ (map j_matches (jobs l)).
Proof.
  intros [Hw Hnd Hlen Hlt Hcell Hsl Hot (rcv & Hout & Hacc & Hrok & Hneed)].
  assert (Hfull : length (goneOuts l) = length l).
  { apply Permutation_length in Hout. rewrite app_length in Hout. pose proof (goneOuts_length l). lia. }
  assert (Hch : ch = []).
  { apply Permutation_length in Hout. rewrite app_length in Hout. destruct ch; auto. simpl in Hout. lia. }
  subst ch. rewrite app_nil_r in Hout. destruct (goneOuts_full l Hfull) as [Hg Ho].
  rewrite Ho in Hout. split; [|split].
  - split; [auto|split; [|auto]]. intros j Hj. unfold jobs in Hj. apply in_map_iff in Hj as ([[j' [b c0]] w] & <- & Hin).
    simpl. rewrite (Hsl _ _ _ _ Hin). specialize (Hg _ Hin). simpl in Hg. subst w.
    rewrite Forall_forall in Hw. specialize (Hw _ Hin). unfold gwOk in Hw. simpl in Hw.
    inversion Hw as [? ? ? _ Hb _ _ _]; subst. destruct (Hb eq_refl) as [-> | Hv]; auto.
    rewrite Hv. destruct b; auto.
  - intros j Hj. assert (In (outOf j) rcv) as Hin.
    { eapply Permutation_in; [exact Hout|]. apply in_map; auto. }
    apply Hrok in Hin. exact Hin.
  - rewrite Hacc. apply sumZ_perm. apply Permutation_sym.
    replace (map j_matches (jobs l)) with (map snd (map outOf (jobs l))) by (rewrite map_map; reflexivity).
    apply Permutation_map. exact Hout.
Qed.

Lemma forkOk_stop len c l sh m ch need acc :
  ForkOk len c l sh ((false, m) :: ch) need acc -> exists j, In j (jobs l) /\ j_ok j = false.
Proof.
  intros [Hw Hnd Hlen Hlt Hcell Hsl Hot (rcv & Hout & Hacc & Hrok & Hneed)].
  assert (Hin : In (false, m) (goneOuts l)).
  { eapply Permutation_in; [symmetry; exact Hout|]. apply in_or_app. right; left; auto. }
  unfold goneOuts in Hin. apply in_map_iff in Hin as ([[j b] w] & E & Hin). apply filter_In in Hin as [Hin _].
  exists j. split; [|inversion E; auto]. unfold jobs. apply in_map_iff. exists (j, b, w). auto.
Qed.

Lemma fork_inv c ws sh ch need acc k c' g' :
  gstep c (GFork ws sh ch need acc k) c' g' ->
  (exists ws1 w ws2 l w' sh' ch', ws = ws1 ++ w :: ws2 /\ wstep c w l c' w' /\ effect l sh ch sh' ch' /\
     g' = GFork (ws1 ++ w' :: ws2) sh' ch' need acc k) \/
  (c' = c /\ exists m ch0 need0, ch = (true, m) :: ch0 /\ need = S need0 /\ g' = GFork ws sh ch0 need0 (acc + m)%Z k) \/
  (c' = c /\ exists m ch0 need0, ch = (false, m) :: ch0 /\ need = S need0 /\ g' = k false acc sh) \/
  (c' = c /\ need = 0 /\ g' = k true acc sh).
Proof.
  intros H. inversion H; subst.
  - left. eexists _, _, _, _, _, _, _. eauto.
  - right; left. split; auto. eexists _, _, _. eauto.
  - right; right; left. split; auto. eexists _, _, _. eauto.
  - right; right; right. auto.
Qed.

Lemma map_split {B C} (f : B -> C) l : forall ws1 w ws2, map f l = ws1 ++ w :: ws2 ->
  exists l1 g l2, l = l1 ++ g :: l2 /\ map f l1 = ws1 /\ f g = w /\ map f l2 = ws2.
Proof.
  induction l as [|g l IH]; intros ws1 w ws2 H.
  - destruct ws1; discriminate.
  - destruct ws1 as [|w1 ws1]; simpl in H; inversion H; subst.
    + exists [], g, l. auto.
    + destruct (IH _ _ _ H2) as (l1 & g1 & l2 & -> & <- & <- & <-). exists (g :: l1), g1, l2. auto.
Qed.

(** The rule for a call of [Parallel] in parallel mode. *)
Theorem fork_yields len r c0 k js : 0 < chanCap ->
  ((forall j, In j js -> j_ok j = true) -> forall c mask slots, rely c0 c -> Filled len js slots ->
     Yields r c (k true (sumZ (map j_matches js)) (mask, slots))) ->
  ((exists j, In j js /\ j_ok j = false) -> forall c acc sh, rely c0 c -> Yields r c (k false acc sh)) ->
  forall l, Acc gwsStep l -> jobs l = js -> forall need c sh ch acc,
  rely c0 c -> ForkOk len c l sh ch need acc -> Yields r c (GFork (map snd l) sh ch need acc k).
Proof.
  intros Hcap Hall Hstop l Hacc. induction Hacc as [l _ IHl]. intros Hjs.
  induction need as [need IHn] using lt_wf_ind. intros c sh ch acc Hc0 HF.
  constructor.
  - intros H. inversion H as [|ws sh' ch' need' acc' k' g fin Hin Hcr]; subst.
    apply in_map_iff in Hin as ([[j b] w] & Ew & Hin). simpl in Ew. subst w.
    pose proof (fo_works _ _ _ _ _ _ _ HF) as Hw. rewrite Forall_forall in Hw. specialize (Hw _ Hin).
    unfold gwOk in Hw. simpl in Hw. inversion Hw as [? ? ? Hnc _ _ _ _]; subst. apply Hnc. exact Hcr.
  - right. split; [discriminate|]. intros c1 Hc.
    destruct need as [|need]; [eexists _, _; apply s_done|].
    destruct ch as [|[[|] m] ch]; [|eexists _, _; apply s_recv|eexists _, _; apply s_stop].
    (* nothing to receive: some worker has not sent yet, and can step *)
    destruct (fo_out _ _ _ _ _ _ _ HF) as (rcv & Hout & _ & _ & Hneed).
    assert (Hex : exists g, In g l /\ isGone (snd g) = false).
    { apply Permutation_length in Hout. rewrite app_nil_r in Hout. unfold goneOuts in Hout.
      rewrite map_length in Hout.
      assert (Hlt : length (filter (fun g : gw => isGone (snd g)) l) < length l) by (unfold gw in *; lia).
      clear - Hlt. induction l as [|g l IH]; simpl in *; [lia|].
      destruct (isGone (snd g)) eqn:E; [|exists g; auto].
      simpl in Hlt. destruct IH as (g' & H1 & H2); [lia|]. exists g'; auto. }
    destruct Hex as ([[j [b c2]] w] & Hin & Hg). simpl in Hg.
    pose proof (fo_works _ _ _ _ _ _ _ HF) as Hw. rewrite Forall_forall in Hw. specialize (Hw _ Hin).
    pose proof (fo_cell _ _ _ _ _ _ _ HF _ _ _ _ Hin) as Hc2.
    unfold gwOk in Hw. simpl in Hw. inversion Hw as [? ? ? _ _ Hprog _ _]; subst.
    destruct (Hprog ltac:(intros ->; discriminate) c1 (fst sh) ltac:(eauto)) as (lb & c' & w' & Hst & Hld).
    apply in_split in Hin as (l1 & l2 & ->). rewrite map_app. simpl.
    destruct lb as [|m|m|i x|ok m].
    + eexists _, _. eapply s_worker; [exact Hst|]. simpl. eauto.
    + eexists _, _. eapply s_worker; [exact Hst|]. simpl. eauto.
    + eexists _, _. eapply s_worker; [exact Hst|]. simpl. eauto.
    + eexists _, _. eapply s_worker; [exact Hst|]. simpl. eauto.
    + eexists _, _. eapply s_worker; [exact Hst|]. simpl. eauto.
  - intros c1 c' g' Hc Hst. apply fork_inv in Hst as [H|[[-> _]|[[-> _]|[-> _]]]]; auto.
    destruct H as (ws1 & w & ws2 & lb & w' & sh' & ch' & E & Hst & He & ->).
    apply map_split in E as (l1 & [[j [b c2]] w0] & l2 & -> & <- & Ew & <-). simpl in Ew. subst w0.
    pose proof (fo_works _ _ _ _ _ _ _ HF) as Hw. rewrite Forall_forall in Hw.
    assert (Hin : In (j, (b, c2), w) (l1 ++ (j, (b, c2), w) :: l2)).
    { apply in_or_app. right; left; auto. }
    pose proof (fo_cell _ _ _ _ _ _ _ HF _ _ _ _ Hin) as Hc2.
    assert (Hwj : Works j b c2 w) by (apply (Hw _ Hin)).
    inversion Hwj as [? ? ? _ _ _ Hlab _]; subst.
    destruct (Hlab c1 lb c' w') as [Hr _]; eauto.
  - intros c1 c' g' Hc Hst. apply fork_inv in Hst as [H|[[-> H]|[[-> H]|[-> [-> ->]]]]].
    + destruct H as (ws1 & w & ws2 & lb & w' & sh' & ch' & E & Hst & He & ->).
      apply map_split in E as (l1 & [[j [b c2]] w0] & l2 & -> & <- & Ew & <-). simpl in Ew. subst w0.
      assert (Hin : In (j, (b, c2), w) (l1 ++ (j, (b, c2), w) :: l2)).
      { apply in_or_app. right; left; auto. }
      pose proof (fo_cell _ _ _ _ _ _ _ HF _ _ _ _ Hin) as Hc2.
      assert (Hr : rely c1 c').
      { pose proof (fo_works _ _ _ _ _ _ _ HF) as Hw. rewrite Forall_forall in Hw.
        assert (Hwj : Works j b c2 w) by (apply (Hw _ Hin)).
        inversion Hwj as [? ? ? _ _ _ Hlab _]; subst. destruct (Hlab c1 lb c' w') as [Hr _]; eauto. }
      replace (map snd l1 ++ w' :: map snd l2) with (map snd (l1 ++ (j, (b || isSlot lb, c'), w') :: l2))
        by (rewrite map_app; reflexivity).
      apply IHl.
      * constructor. econstructor; [|exact Hst]. eauto.
      * rewrite <- Hjs. unfold jobs. rewrite !map_app. reflexivity.
      * eauto.
      * eapply forkOk_worker; eauto.
    + destruct H as (m & ch0 & need0 & -> & -> & ->). apply IHn; [lia|eauto|]. eapply forkOk_recv; eauto.
    + destruct H as (m & ch0 & need0 & -> & -> & ->). apply Hstop; [|eauto]. rewrite <- Hjs. eapply forkOk_stop; eauto.
    + apply forkOk_done in HF as (Hf & Hok & Hm). rewrite Hjs in *. subst acc.
      destruct sh as [mask slots]. apply Hall; eauto.
Qed.

Lemma forkOk_init len c js ws mask :
  Forall2 (fun j w => Works j false c w) js ws ->
  NoDup (map j_slot js) -> (forall j, In j js -> j_slot j < len) ->
  exists l, map snd l = ws /\ jobs l = js /\ Acc gwsStep l /\
    (Forall (fun w => isGone w = false) ws ->
     ForkOk len c l (mask, repeat None len) [] (length ws) 0).
Proof.
  intros H Hnd Hlt.
  exists (map (fun p => (fst p, (false, c), snd p)) (List.combine js ws)).
  assert (Hl : length js = length ws).
  { clear - H. induction H; simpl; lia. }
  assert (Hj : jobs (map (fun p => (fst p, (false, c), snd p)) (List.combine js ws)) = js).
  { clear - H. induction H; simpl; auto. unfold jobs in *. simpl. f_equal. auto. }
  assert (Hs : map snd (map (fun p => (fst p, (false, c), snd p)) (List.combine js ws)) = ws).
  { clear - H. induction H; simpl; auto. f_equal; auto. }
  assert (Hw : Forall gwOk (map (fun p => (fst p, (false, c), snd p)) (List.combine js ws))).
  { clear - H. induction H; simpl; constructor; auto. }
  split; [exact Hs|]. split; [exact Hj|]. split.
  - apply gws_acc. eapply Forall_impl; [|exact Hw]. intros [[j [b c0]] w] Hg. apply works_acc. exact Hg.
  - intros Hng. assert (Hrep : forall i, nth i (repeat (@None X) len) None = None).
    { intros i. destruct (Nat.lt_ge_cases i len); [apply nth_repeat|apply nth_overflow; rewrite repeat_length; lia]. }
    constructor.
    + exact Hw.
    + rewrite Hj; auto.
    + simpl. apply repeat_length.
    + rewrite Hj; auto.
    + intros j b c0 w Hin. apply in_map_iff in Hin as (p & E & _). inversion E; subst. apply rely_refl.
    + intros j b c0 w Hin. apply in_map_iff in Hin as (p & E & _). inversion E; subst. simpl. apply Hrep.
    + intros i _. simpl. apply Hrep.
    + exists []. split; [|split; [|split]].
      * simpl. assert (Hz : goneOuts (map (fun p => (fst p, (false, c), snd p)) (List.combine js ws)) = []).
        { clear - H Hng. induction H as [|j w js ws Hj _ IH]; simpl; auto.
          inversion Hng; subst. unfold goneOuts in *. simpl. rewrite H1. auto. }
        rewrite Hz. constructor.
      * reflexivity.
      * intros o [].
      * simpl. rewrite Nat.add_0_r, map_length, combine_length, Hl, Nat.min_id. reflexivity.
Qed.

(** ** Sequential mode *)

Lemma runActs_ok j a : forall b sh, actsOk j b a -> j_slot j < length (snd sh) ->
  nth (j_slot j) (snd sh) None = (if b then j_val j else None) ->
  exists mask slots, runActs a sh = (j_ok j, j_matches j, (mask, slots)) /\
    length slots = length (snd sh) /\ nth (j_slot j) slots None = j_val j /\
    (forall i, i <> j_slot j -> nth i slots None = nth i (snd sh) None).
Proof.
  induction a as [k IH|m k IH|i x k IH|ok m]; intros b sh H Hlt Hs; cbn [actsOk] in H; cbn [runActs].
  - apply (IH (fst sh) b sh); auto.
  - apply (IH b (m, snd sh)); auto.
  - destruct H as (-> & -> & H). destruct (IH true (fst sh, set_nth (snd sh) (j_slot j) (j_val j))) as (mk & sl & E1 & E2 & E3 & E4); auto.
    + simpl. rewrite set_nth_length; auto.
    + simpl. apply nth_set_nth_eq; auto.
    + exists mk, sl. split; auto. simpl in E2. rewrite set_nth_length in E2. split; auto. split; auto.
      intros i Hi. rewrite E4 by auto. simpl. apply nth_set_nth_ne; auto.
  - destruct H as (-> & -> & Hb). destruct sh as [mask slots]. exists mask, slots. split; auto.
    split; auto. split; auto. simpl in *. rewrite Hs. destruct Hb as [->|Hv]; auto. rewrite Hv. destruct b; auto.
Qed.

(** The worker does its job, by way of a nested call that yields some result. *)
Definition WorkOk (j : job) (c : option F) (w : worker) : Prop :=
  match w with
  | WRun g fin => exists r, Yields r c g /\ actsOk j false (fin r)
  | WAct a => actsOk j false a
  | WGone => False
  end.

Lemma workOk_works j c w : WorkOk j c w -> Works j false c w.
Proof.
  destruct w as [g fin|a|]; simpl.
  - intros (r & H1 & H2). eapply works_run; eauto.
  - apply works_act.
  - contradiction.
Qed.

Lemma workOk_mono j c c' w : WorkOk j c w -> rely c c' -> WorkOk j c' w.
Proof.
  destruct w as [g fin|a|]; simpl; auto. intros (r & H1 & H2) Hr. exists r. split; auto. eapply yields_mono; eauto.
Qed.

Lemma seq_yields len r c0 k js0 w : forall js order done acc c sh,
  rely c0 c ->
  js0 = done ++ js -> map j_slot js = order ->
  Forall (fun j => WorkOk j c0 (w (j_slot j))) js ->
  NoDup (map j_slot js0) -> (forall j, In j js0 -> j_slot j < len) ->
  length (snd sh) = len ->
  (forall j, In j done -> nth (j_slot j) (snd sh) None = j_val j) ->
  (forall i, ~ In i (map j_slot done) -> nth i (snd sh) None = None) ->
  acc = sumZ (map j_matches done) -> (forall j, In j done -> j_ok j = true) ->
  ((forall j, In j js0 -> j_ok j = true) -> forall c mask slots, rely c0 c -> Filled len js0 slots ->
     Yields r c (k true (sumZ (map j_matches js0)) (mask, slots))) ->
  ((exists j, In j js0 /\ j_ok j = false) -> forall c acc sh, rely c0 c -> Yields r c (k false acc sh)) ->
  Yields r c (seqLoop w order acc sh k).
Proof.
  induction js as [|j js IH]; intros order done acc c sh Hc Hjs Hord Hw Hnd Hlt Hlen Hdone Hoth Hacc Hok Hall Hstop.
  - simpl in Hord. subst order. simpl. rewrite app_nil_r in Hjs. subst done acc.
    destruct sh as [mask slots]. apply Hall; auto. split; auto.
  - simpl in Hord. subst order. cbn [seqLoop]. inversion Hw as [|? ? Hwj Hw']; subst x l.
    assert (Hgo : forall a c1, actsOk j false a -> rely c c1 ->
      Yields r c1 (let '(ok, m, sh') := runActs a sh in
                if ok then seqLoop w (map j_slot js) (acc + m) sh' k else k false acc sh')).
    { intros a c1 Ha Hc1.
      assert (Hjn : ~ In (j_slot j) (map j_slot done)).
      { subst js0. rewrite map_app in Hnd. simpl in Hnd. apply NoDup_remove_2 in Hnd.
        intros Hin. apply Hnd. apply in_or_app; auto. }
      destruct (runActs_ok j a false sh Ha) as (mask & slots & E & El & Es & Eo).
      { rewrite Hlen. apply Hlt. subst js0. apply in_or_app. right; left; auto. }
      { apply Hoth; auto. }
      rewrite E. destruct (j_ok j) eqn:Ej.
      - apply (IH (map j_slot js) (done ++ [j])); auto.
        + eauto.
        + rewrite <- app_assoc. exact Hjs.
        + simpl. lia.
        + intros j' Hj'. simpl. apply in_app_or in Hj' as [Hj'|[<-|[]]]; [|exact Es].
          rewrite Eo; auto. intros E2. apply Hjn. rewrite <- E2. apply in_map; auto.
        + intros i Hi. simpl. rewrite map_app in Hi. rewrite Eo.
          * apply Hoth. intros H; apply Hi. apply in_or_app; auto.
          * intros ->. apply Hi. apply in_or_app. right; left; auto.
        + rewrite map_app, sumZ_app. simpl. lia.
        + intros j' Hj'. apply in_app_or in Hj' as [Hj'|[<-|[]]]; auto.
      - apply Hstop; [|eauto]. exists j. split; auto. subst js0. apply in_or_app. right; left; auto. }
    destruct (w (j_slot j)) as [g fin|a|]; simpl in Hwj.
    + destruct Hwj as (r0 & Hy & Ha). apply (yields_bind r0); auto. eapply yields_mono; eauto.
    + apply Hgo; auto.
    + contradiction.
Qed.

(** The rule for a call of [Parallel], in either mode. *)
Theorem parallel_yields len limit depth mask w sh k r c (js : list job) :
  0 < chanCap ->
  map j_slot js = mask_indices mask -> NoDup (mask_indices mask) ->
  (forall i, In i (mask_indices mask) -> i < len) ->
  (forall j, In j js -> WorkOk j c (w (j_slot j))) ->
  snd sh = repeat None len ->
  ((forall j, In j js -> j_ok j = true) -> forall c1 mask' slots, rely c c1 -> Filled len js slots ->
     Yields r c1 (k true (sumZ (map j_matches js)) (mask', slots))) ->
  ((exists j, In j js /\ j_ok j = false) -> forall c1 acc sh, rely c c1 -> Yields r c1 (k false acc sh)) ->
  Yields r c (forkOrLoop limit depth mask w sh k).
Proof.
  intros Hcap Hidx Hnd Hlt Hw Hsh Hall Hstop. destruct sh as [m0 slots0]. simpl in Hsh. subst slots0.
  assert (Hlt' : forall j, In j js -> j_slot j < len).
  { intros j Hj. apply Hlt. rewrite <- Hidx. apply in_map; auto. }
  unfold forkOrLoop. destruct (_ <? _)%Z.
  - rewrite <- Hidx, map_map, map_length.
    destruct (forkOk_init len c js (map (fun j => w (j_slot j)) js) m0) as (l & Es & Ej & Hacc & HF); auto.
    + clear - Hw rely_refl rely_trans. induction js as [|j js IH]; simpl; constructor.
      * apply workOk_works. apply Hw; left; auto.
      * apply IH. intros; apply Hw; right; auto.
    + rewrite Hidx; auto.
    + rewrite <- Es. apply (fork_yields len r c k js); auto.
      rewrite map_length in HF. apply HF. apply Forall_forall. intros x Hx.
      apply in_map_iff in Hx as (j & <- & Hj). specialize (Hw j Hj). destruct (w (j_slot j)); simpl in *; auto. contradiction.
  - apply (seq_yields len r c k js w js (mask_indices mask) []); auto.
    + apply Forall_forall. exact Hw.
    + rewrite Hidx; auto.
    + simpl. apply repeat_length.
    + intros j [].
    + intros i _. simpl. destruct (Nat.lt_ge_cases i len); [apply nth_repeat|apply nth_overflow; rewrite repeat_length; lia].
Qed.

(** ** What [Yields] says about runs *)

Lemma yields_runs r c g c' g' : Yields r c g -> runs c g c' g' -> rely c c' /\ Yields r c' g'.
Proof.
  intros Hy H. induction H as [|c g c1 g1 c2 g2 _ Hst _ IH]; auto.
  inversion Hy as [? ? _ _ Hk Hn]; subst. destruct IH; eauto.
Qed.

Lemma yields_result r c a : Yields r c (GRet a) -> a = r.
Proof.
  intros H. inversion H as [? ? _ [E|[E _]] _ _]; subst; [congruence|]. exfalso. apply (E a); auto.
Qed.

Lemma yields_safe r c g : Yields r c g -> ~ crashed g /\ ((forall a, g <> GRet a) -> exists c' g', gstep c g c' g').
Proof.
  intros H. inversion H as [? ? Hc Hp _ _]; subst. split; auto. intros Hn.
  destruct Hp as [->|[_ Hp]]; [exfalso; apply (Hn r); auto|]. auto.
Qed.

(** There is a complete run. *)
Lemma yields_exists r c g : Yields r c g -> exists c', runs c g c' (GRet r).
Proof.
  induction 1 as [c g Hc Hp Hk Hn IH]. destruct Hp as [->|[_ Hp]].
  - exists c. constructor.
  - destruct (Hp c (rely_refl c)) as (c1 & g1 & Hst). destruct (IH c c1 g1) as (c2 & Hr); auto.
    exists c2. econstructor; eauto.
Qed.

Lemma yields_unique r1 r2 c g : Yields r1 c g -> Yields r2 c g -> r1 = r2.
Proof.
  intros H1 H2. destruct (yields_exists _ _ _ H1) as (c' & Hr).
  destruct (yields_runs _ _ _ _ _ H2 Hr) as [_ Hy]. eapply yields_result; eauto.
Qed.

(** No run goes on forever. *)
Definition stepBack (p q : option F * gprog) : Prop := ~ crashed (snd q) /\ gstep (fst q) (snd q) (fst p) (snd p).
Lemma yields_ends r c g : Yields r c g -> Acc stepBack (c, g).
Proof.
  induction 1 as [c g _ _ Hk Hn IH]. constructor. intros [c' g'] [_ Hst]. simpl in Hst.
  eapply IH; eauto.
Qed.

(** ** Every run panics *)

(** However the steps are interleaved, and however other goroutines change [flipped] as allowed
    by [rely], the goroutine does not return, does not block, and after finitely many of its
    steps it or one of its workers panics. *)
Inductive Fails : option F -> gprog -> Prop :=
| fails_now c g : crashed g -> Fails c g
| fails_step c g :
    ~ crashed g -> (forall a, g <> GRet a) ->
    (forall c1, rely c c1 -> exists c' g', gstep c1 g c' g') ->
    (forall c1 c' g', rely c c1 -> gstep c1 g c' g' -> rely c1 c') ->
    (forall c1 c' g', rely c c1 -> gstep c1 g c' g' -> Fails c' g') ->
    Fails c g.

Lemma fails_mono c c' g : Fails c g -> rely c c' -> Fails c' g.
Proof.
  intros H Hr. inversion H as [? ? H1|? ? H1 H2 H3 H4 H5]; subst; [apply fails_now; auto|].
  apply fails_step; eauto.
Qed.

Lemma fails_noret c g a : Fails c g -> g <> GRet a.
Proof. intros H. inversion H as [? ? H1|? ? H1 H2 H3 H4 H5]; subst; auto. intros ->. inversion H1. Qed.

Lemma gbind_crashed_back g f : crashed g -> crashed (gbind g f).
Proof. intros H. inversion H; subst; simpl; [constructor|eapply crashed_worker; eauto]. Qed.

Lemma fails_bind f : forall c g, Fails c g -> Fails c (gbind g f).
Proof.
  intros c g H. induction H as [c g H|c g Hc Hn Hp Hk Hs IH].
  - apply fails_now. apply gbind_crashed_back; auto.
  - apply fails_step.
    + intros H. apply Hc. eapply gbind_crashed; eauto.
    + intros a Ha. destruct g; simpl in Ha; try discriminate. apply (Hn a0); auto.
    + intros c1 Hok. destruct (Hp c1 Hok) as (c' & g' & Hst).
      eexists _, _. apply gbind_step_back. eauto.
    + intros c1 c' g' Hok Hst. apply gbind_step in Hst as (g1 & Hst & ->); auto. eapply Hk; eauto.
    + intros c1 c' g' Hok Hst. apply gbind_step in Hst as (g1 & Hst & ->); auto. eapply IH; eauto.
Qed.

Lemma yields_then_fails r f : forall c g, Yields r c g -> (forall c1, rely c c1 -> Fails c1 (f r)) -> Fails c (gbind g f).
Proof.
  intros c g H. induction H as [c g Hc Hp Hk Hs IH]. intros Hf.
  destruct (gret_dec g) as [(a & ->)|Hn].
  - destruct Hp as [Hp|[Hp _]]; [inversion Hp; subst; apply Hf; auto|]. exfalso. apply (Hp a); auto.
  - apply fails_step.
    + intros H. apply Hc. eapply gbind_crashed; eauto.
    + intros a Ha. destruct g; simpl in Ha; try discriminate. apply (Hn a0); auto.
    + intros c1 Hok. destruct Hp as [->|[_ Hp]]; [exfalso; apply (Hn r); auto|].
      destruct (Hp c1 Hok) as (c' & g' & Hst). eexists _, _. apply gbind_step_back. eauto.
    + intros c1 c' g' Hok Hst. apply gbind_step in Hst as (g1 & Hst & ->); auto. eapply Hk; eauto.
    + intros c1 c' g' Hok Hst. apply gbind_step in Hst as (g1 & Hst & ->); auto. eapply IH; eauto 7.
Qed.

(** A worker that does a job, or one whose nested call fails. *)
Inductive fw : Type :=
| FGood (j : job) (b : bool) (c : option F) (w : worker)
| FBad (c : option F) (g : gprog) (fin : A -> wact).
Definition fwWorker (x : fw) : worker := match x with FGood _ _ _ w => w | FBad _ g fin => WRun g fin end.
Definition fwCell (x : fw) : option F := match x with FGood _ _ c _ => c | FBad c _ _ => c end.
Definition fwOk (x : fw) : Prop :=
  match x with
  | FGood j b c w => j_ok j = true /\ Works j b c w
  | FBad c g _ => Fails c g
  end.
Inductive fwStep : fw -> fw -> Prop :=
| fw_good j b c w c1 l c' w' : rely c c1 -> wstep c1 w l c' w' -> fwStep (FGood j (b || isSlot l) c' w') (FGood j b c w)
| fw_bad c g fin c1 c' g' : ~ crashed g -> rely c c1 -> gstep c1 g c' g' -> fwStep (FBad c' g' fin) (FBad c g fin).

Lemma fw_acc x : fwOk x -> Acc fwStep x.
Proof.
  destruct x as [j b c w|c g fin]; simpl.
  - intros [_ H]. induction H as [b c w _ _ _ _ Hs IH]. constructor. intros y Hy. inversion Hy; subst. eapply IH; eauto.
  - intros H. induction H as [c g H|c g Hc Hn Hp Hk Hs IH]; constructor; intros y Hy; inversion Hy; subst.
    + contradiction.
    + eapply IH; eauto.
Qed.

Inductive fwsStep : list fw -> list fw -> Prop :=
| fws_step l1 g l2 g' : fwStep g' g -> fwsStep (l1 ++ g' :: l2) (l1 ++ g :: l2).

Lemma fws_acc l : Forall (Acc fwStep) l -> Acc fwsStep l.
Proof.
  induction 1 as [|g l Hg _ IH].
  - constructor. intros y Hy. inversion Hy. destruct l1; discriminate.
  - revert l IH. induction Hg as [g _ IHg]. intros l Hl. induction Hl as [l Hl0 IHl].
    constructor. intros y Hy. inversion Hy as [l1 g1 l2 g2 Hst E1 E2]; subst.
    destruct l1 as [|g0 l1]; simpl in E2; inversion E2; subst; simpl.
    + apply IHg; auto. constructor. exact Hl0.
    + apply IHl. constructor; auto.
Qed.

Definition running (l : list fw) : nat := length (filter (fun x => negb (isGone (fwWorker x))) l).
Definition isBad (x : fw) : bool := match x with FBad _ _ _ => true | _ => false end.

Record FForkOk (c : option F) (l : list fw) (ch : list (bool * Z)) (need : nat) : Prop := {
  ff_ok : Forall fwOk l;
  ff_cell : forall x, In x l -> rely (fwCell x) c;
  ff_bad : exists x, In x l /\ isBad x = true;
  ff_need : need = length ch + running l;
  ff_true : forall o, In o ch -> fst o = true;
}.

Lemma running_app l1 x l2 : running (l1 ++ x :: l2) = running l1 + (if isGone (fwWorker x) then 0 else 1) + running l2.
Proof. unfold running. rewrite filter_app, app_length. simpl. destruct (isGone (fwWorker x)); simpl; lia. Qed.

Lemma crash_dec l : Forall fwOk l ->
  (exists g fin, In (WRun g fin) (map fwWorker l) /\ crashed g) \/
  (forall x, In x l -> match x with
     | FGood _ _ _ w => ~ wcrashed w
     | FBad c g _ => ~ crashed g /\ (forall a, g <> GRet a) /\
         (forall c1, rely c c1 -> exists c' g', gstep c1 g c' g') /\
         (forall c1 c' g', rely c c1 -> gstep c1 g c' g' -> rely c1 c') /\
         (forall c1 c' g', rely c c1 -> gstep c1 g c' g' -> Fails c' g')
     end).
Proof.
  induction 1 as [|x l Hx _ IH]; [right; intros x []|].
  destruct IH as [(g & fin & Hin & Hc)|IH]; [left; exists g, fin; simpl; auto|].
  destruct x as [j b c w|c g fin]; simpl in Hx.
  - right. intros x [<-|Hx']; [|apply IH; auto]. destruct Hx as [_ Hx]. inversion Hx; auto.
  - inversion Hx as [? ? Hc|? ? H1 H2 H3 H4 H5]; subst.
    + left. exists g, fin. simpl. auto.
    + right. intros x [<-|Hx']; [|apply IH; auto]. auto.
Qed.

(** A call of [Parallel] in parallel mode in which the nested call of one worker fails. *)
Theorem fork_fails k : forall l, Acc fwsStep l -> forall need c sh ch acc,
  FForkOk c l ch need -> Fails c (GFork (map fwWorker l) sh ch need acc k).
Proof.
  intros l Hacc. induction Hacc as [l _ IHl].
  induction need as [need IHn] using lt_wf_ind. intros c sh ch acc HF.
  destruct (crash_dec l (ff_ok _ _ _ _ HF)) as [(g & fin & Hin & Hc)|Hok].
  { apply fails_now. eapply crashed_worker; eauto. }
  assert (Hone : 1 <= running l).
  { destruct (ff_bad _ _ _ _ HF) as (x & Hx & Hb). apply in_split in Hx as (l1 & l2 & ->).
    rewrite running_app. destruct x; [discriminate|]. simpl. lia. }
  assert (Hworker : forall c1 c' g', rely c c1 ->
     (exists ws1 w ws2 l0 w' sh' ch', map fwWorker l = ws1 ++ w :: ws2 /\ wstep c1 w l0 c' w' /\ effect l0 sh ch sh' ch' /\
       g' = GFork (ws1 ++ w' :: ws2) sh' ch' need acc k) -> rely c1 c' /\ Fails c' g').
  { intros c1 c' g' Hc (ws1 & w & ws2 & lb & w' & sh' & ch' & E & Hst & He & ->).
    apply map_split in E as (l1 & x & l2 & -> & <- & Ew & <-).
    pose proof (ff_ok _ _ _ _ HF) as Hall.
    assert (Hin : In x (l1 ++ x :: l2)) by (apply in_or_app; right; left; auto).
    pose proof (ff_cell _ _ _ _ HF _ Hin) as Hc2.
    assert (Hx : fwOk x) by (rewrite Forall_forall in Hall; auto).
    assert (Hnext : forall x', fwStep x' x -> fwOk x' -> fwCell x' = c' -> fwWorker x' = w' -> isBad x' = isBad x ->
        rely c1 c' ->
        match lb with LSend ok _ => ok = true | _ => True end ->
        Fails c' (GFork (map fwWorker l1 ++ w' :: map fwWorker l2) sh' ch' need acc k)).
    { intros x' H1 H2 H3 H4 H5 H6 H7. subst w w'.
      replace (map fwWorker l1 ++ fwWorker x' :: map fwWorker l2) with (map fwWorker (l1 ++ x' :: l2))
        by (rewrite map_app; reflexivity).
      apply IHl; [constructor; auto|]. constructor.
      - apply Forall_app in Hall as [Ha Hb]. inversion Hb; subst. apply Forall_app. auto.
      - intros y Hy. apply in_app_or in Hy as [Hy|[<-|Hy]].
        + apply (rely_trans _ c1); [|auto]. apply (rely_trans _ c); auto. apply (ff_cell _ _ _ _ HF). apply in_or_app; auto.
        + rewrite H3. apply rely_refl.
        + apply (rely_trans _ c1); [|auto]. apply (rely_trans _ c); auto. apply (ff_cell _ _ _ _ HF). apply in_or_app; right; right; auto.
      - destruct (ff_bad _ _ _ _ HF) as (y & Hy & Hb). apply in_app_or in Hy as [Hy|[<-|Hy]].
        + exists y. split; auto. apply in_or_app; auto.
        + exists x'. split; [apply in_or_app; right; left; auto|congruence].
        + exists y. split; auto. apply in_or_app; right; right; auto.
      - rewrite (ff_need _ _ _ _ HF), !running_app, (wstep_notgone _ _ _ _ _ Hst), (wstep_gone _ _ _ _ _ Hst).
        destruct lb; simpl in He; destruct He; repeat match goal with H : _ /\ _ |- _ => destruct H end; subst; try lia.
        rewrite app_length. simpl. lia.
      - intros o Ho. destruct lb as [|m|m|i y|ok m]; simpl in He; repeat match goal with H : _ /\ _ |- _ => destruct H end; subst;
          try (apply (ff_true _ _ _ _ HF); auto; fail).
        apply in_app_or in Ho as [Ho|[<-|[]]]; [apply (ff_true _ _ _ _ HF); auto|reflexivity]. }
    destruct x as [j b c0 w0|c0 g0 fin0]; simpl in *; subst w.
    - destruct Hx as [Hj Hw]. inversion Hw as [? ? ? _ _ _ Hlab Hwk]; subst.
      destruct (Hlab c1 lb c' w') as [Hr Hl]; eauto. split; auto.
      apply (Hnext (FGood j (b || isSlot lb) c' w')); simpl; auto.
      + econstructor; [|exact Hst]. eauto.
      + split; auto. apply (Hwk c1 lb c' w'); eauto.
      + destruct lb; auto. simpl in Hl. destruct Hl; congruence.
    - specialize (Hok _ Hin). simpl in Hok. destruct Hok as (N1 & N2 & N3 & N4 & N5).
      inversion Hst; subst.
      + split; [apply (N4 c1 c' g'); eauto|]. apply (Hnext (FBad c' g' fin0)); simpl; auto.
        * econstructor; [auto| |eassumption]. eauto.
        * apply (N5 c1); eauto.
        * apply (N4 c1 c' g'); eauto.
      + exfalso. eapply N2; eauto. }
  apply fails_step.
  - intros H. inversion H as [|ws sh' ch' need' acc' k' g fin Hin Hcr]; subst.
    apply in_map_iff in Hin as (x & Ew & Hin). specialize (Hok x Hin).
    destruct x as [j b c0 w|c0 g0 fin0]; simpl in Ew.
    + subst w. apply Hok. exact Hcr.
    + inversion Ew; subst. apply Hok. exact Hcr.
  - discriminate.
  - intros c1 Hc. destruct (ff_bad _ _ _ _ HF) as (x & Hin & Hb).
    pose proof (ff_cell _ _ _ _ HF _ Hin) as Hc2. specialize (Hok x Hin).
    destruct x as [j b c0 w|c0 g0 fin0]; [discriminate|]. destruct Hok as (_ & _ & N3 & _ & _).
    destruct (N3 c1) as (c' & g' & Hst); [simpl in *; eauto|].
    apply in_split in Hin as (l1 & l2 & ->). rewrite map_app. simpl.
    eexists _, _. eapply s_worker; [apply w_run; exact Hst|]. simpl. eauto.
  - intros c1 c' g' Hc Hst. apply fork_inv in Hst as [H|[[-> _]|[[-> _]|[-> _]]]]; auto.
    eapply Hworker; eauto.
  - intros c1 c' g' Hc Hst. apply fork_inv in Hst as [H|[[-> H]|[[-> H]|[-> [-> ->]]]]].
    + eapply Hworker; eauto.
    + destruct H as (m & ch0 & need0 & -> & -> & ->). apply IHn; [lia|]. destruct HF as [H1 H2 H3 H4 H5].
      constructor; auto.
      * eauto.
      * intros o Ho. apply H5. right; auto.
    + destruct H as (m & ch0 & need0 & -> & -> & ->). pose proof (ff_true _ _ _ _ HF _ (or_introl eq_refl)). discriminate.
    + pose proof (ff_need _ _ _ _ HF). lia.
Qed.

(** Sequential mode. *)
Lemma seq_fails k w c0 : forall order acc c sh,
  rely c0 c ->
  (forall i, In i order -> (exists j, j_ok j = true /\ WorkOk j c0 (w i)) \/ (exists g fin, w i = WRun g fin /\ Fails c0 g)) ->
  (exists i g fin, In i order /\ w i = WRun g fin /\ Fails c0 g) ->
  Fails c (seqLoop w order acc sh k).
Proof.
  induction order as [|i order IH]; intros acc c sh Hc Hall Hex; [destruct Hex as (? & ? & ? & [] & _)|].
  cbn [seqLoop]. destruct (Hall i (or_introl eq_refl)) as [(j & Hj & Hw)|(g & fin & Ew & Hg)].
  - destruct Hex as (i' & g & fin & [<-|Hi] & Ew & Hg).
    { rewrite Ew. apply fails_bind. eapply fails_mono; eauto. }
    assert (Hgo : forall a c1, actsOk j false a -> rely c c1 ->
      Fails c1 (let '(ok, m, sh') := runActs a sh in
                if ok then seqLoop w order (acc + m) sh' k else k false acc sh')).
    { intros a c1 Ha Hc1.
      assert (Hr : fst (fst (runActs a sh)) = true).
      { clear - Ha Hj. revert Ha sh. generalize false. induction a as [kk IH|m kk IH|i x kk IH|ok m]; intros b H sh; cbn [actsOk] in H; cbn [runActs].
        - eapply IH; eauto.
        - eapply IH; eauto.
        - destruct H as (_ & _ & H). eapply IH; eauto.
        - simpl. destruct H; congruence. }
      destruct (runActs a sh) as [[ok m] sh']. simpl in Hr. subst ok. apply IH; eauto.
      - intros; apply Hall; right; auto.
      - exists i', g, fin. auto. }
    destruct (w i) as [g1 fin1|a|]; simpl in Hw.
    + destruct Hw as (r & Hy & Ha). apply (yields_then_fails r); auto. eapply yields_mono; eauto.
    + apply Hgo; auto.
    + contradiction.
  - rewrite Ew. apply fails_bind. eapply fails_mono; eauto.
Qed.

(** A call of [Parallel], in either mode, in which the nested call of one worker fails. *)
Theorem parallel_fails limit depth mask w sh k c :
  (forall i, In i (mask_indices mask) ->
     (exists j, j_ok j = true /\ WorkOk j c (w i)) \/ (exists g fin, w i = WRun g fin /\ Fails c g)) ->
  (exists i g fin, In i (mask_indices mask) /\ w i = WRun g fin /\ Fails c g) ->
  Fails c (forkOrLoop limit depth mask w sh k).
Proof.
  intros Hall Hex. unfold forkOrLoop. destruct (_ <? _)%Z.
  2:{ apply (seq_fails k w c); auto. }
  assert (Hl : forall order,
    (forall i, In i order -> (exists j, j_ok j = true /\ WorkOk j c (w i)) \/ (exists g fin, w i = WRun g fin /\ Fails c g)) ->
    exists l, map fwWorker l = map w order /\ Forall fwOk l /\ (forall x, In x l -> fwCell x = c) /\ running l = length order /\
      (forall i g fin, In i order -> w i = WRun g fin -> Fails c g ->
         (exists x, In x l /\ isBad x = true))).
  { clear Hall Hex. induction order as [|i order IH]; intros Hall.
    - exists []. split; [reflexivity|]. split; [constructor|]. split; [intros x []|]. split; [reflexivity|]. intros i g fin [].
    - destruct IH as (l & H1 & H2 & H3 & H4 & H5); [intros; apply Hall; right; auto|].
      assert (Hbad : forall g fin, w i = WRun g fin -> Fails c g -> exists l, map fwWorker l = map w (i :: order) /\ Forall fwOk l /\ (forall x, In x l -> fwCell x = c) /\ running l = length (i :: order) /\
      (forall i' g fin, In i' (i :: order) -> w i' = WRun g fin -> Fails c g -> (exists x, In x l /\ isBad x = true))).
      { intros g fin Ew Hg. exists (FBad c g fin :: l). split; [simpl; congruence|]. split; [constructor; auto|].
        split; [intros x [<-|Hx]; simpl; auto|]. split; [unfold running in *; simpl; lia|].
        intros. exists (FBad c g fin). simpl. auto. }
      destruct (Hall i (or_introl eq_refl)) as [(j & Hj & Hw)|(g & fin & Ew & Hg)]; [|eauto].
      assert (Hg : isGone (w i) = false) by (destruct (w i); simpl in *; auto; contradiction).
      destruct (w i) as [g fin|a|] eqn:Ew.
      + exists (FGood j false c (WRun g fin) :: l). split; [simpl; congruence|].
        split; [constructor; auto; split; auto; apply workOk_works; auto|].
        split; [intros x [<-|Hx]; simpl; auto|]. split; [unfold running in *; simpl; lia|].
        intros i' g' fin' [<-|Hi] Ew' Hf.
        * exfalso. assert (g' = g) as -> by congruence. destruct Hw as (r & Hy & _). revert Hf. clear - Hy rely_refl.
          induction Hy as [c g Hc Hp Hk Hs IH]. intros Hf. inversion Hf as [? ? H1|? ? H1 H2 H3 H4 H5]; subst; auto.
          destruct (H3 c (rely_refl c)) as (c' & g' & Hst). eapply IH; eauto.
        * destruct (H5 i' g' fin' Hi Ew' Hf) as (x & Hx & Hb). exists x. simpl. auto.
      + exists (FGood j false c (WAct a) :: l). split; [simpl; congruence|].
        split; [constructor; auto; split; auto; apply workOk_works; auto|].
        split; [intros x [<-|Hx]; simpl; auto|]. split; [unfold running in *; simpl; lia|].
        intros i' g' fin' [<-|Hi] Ew' Hf; [congruence|].
        destruct (H5 i' g' fin' Hi Ew' Hf) as (x & Hx & Hb). exists x. simpl. auto.
      + discriminate. }
  destruct (Hl (mask_indices mask) Hall) as (l & H1 & H2 & H3 & H4 & H5).
  rewrite <- H1. destruct Hex as (i & g & fin & Hi & Ew & Hg). apply fork_fails.
  - apply fws_acc. eapply Forall_impl; [|exact H2]. apply fw_acc.
  - constructor; auto.
    + intros x Hx. rewrite (H3 x Hx). apply rely_refl.
    + eauto.
Qed.

Lemma fails_runs c g c' g' : Fails c g -> runs c g c' g' -> Fails c' g'.
Proof.
  intros Hy H. induction H as [|c g c1 g1 c2 g2 Hnc Hst Hr IH]; auto.
  inversion Hy as [? ? Hc|? ? _ _ _ Hk Hn]; subst; [contradiction|]. eauto.
Qed.

Lemma fails_safe c g : Fails c g -> (forall a, g <> GRet a) /\ (crashed g \/ exists c' g', gstep c g c' g').
Proof.
  intros H. split; [intros a; eapply fails_noret; eauto|].
  inversion H as [? ? Hc|? ? _ _ Hp _ _]; subst; auto.
Qed.

Lemma fails_ends c g : Fails c g -> Acc stepBack (c, g).
Proof.
  induction 1 as [c g H|c g _ _ _ _ Hk IH]; constructor; intros [c' g'] [Hn Hst]; simpl in *.
  - contradiction.
  - eapply IH; eauto.
Qed.

End Conc.

Arguments wact : clear implicits.
Arguments gprog : clear implicits.
Arguments worker : clear implicits.
Arguments job : clear implicits.
Arguments shared : clear implicits.
