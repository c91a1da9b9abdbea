(** * Races: data races between the goroutines of one operation.

    In a state of all goroutines (Goroutines.v) each goroutine is about to do one thing; [pending] lists those that are accesses to
    shared variables. Two goroutines about to access the same variable, one of them to assign to it, race: nothing orders the two
    accesses (the Go memory model: neither happens before the other). Shared are the mask and the children of the branch that a call
    of [Parallel] fills, or its array of results (branch.go:97-110, 128-139, 184-191, 208-213, 288-295), and the field [flipped] of
    [CombineArgs] (nodeArgs.go:40-50). The operands' nodes are only read. Functions given by the caller are taken to access nothing
    that is shared. *)
From Verif Require Import Base Bits Env EnvFacts Node NodeWf NodeAdd NodeRemove NodeBin NodeBin2 NodeUn Iter Tree TreeFacts
  SetApi MapApi Concurrency ConcOps ConcApi Goroutines GoOps.

(** A shared variable: [flipped], or the mask or a slot of the branch (or array of results) filled by the call of [Parallel] of
    the goroutine that is found at [p] (the number of the thread last, before it the numbers of the workers). *)
Inductive place := PFlip | PMask (p : list nat) | PSlot (p : list nat) (i : nat).
Definition isSlot (v : place) : bool := match v with PSlot _ _ => true | _ => false end.
(** An access; [true] if it is an assignment. *)
Notation access := (place * bool)%type.
Definition conflict (a b : access) : Prop := fst a = fst b /\ snd a || snd b = true.

Section Races.
Context {A X F : Type}.
Notation gprog := (gprog A X F).
Notation worker := (worker A X F).
Notation wact := (wact X).
Notation thread := (thread A X F).
Variable chanCap : nat.
Notation estep := (estep chanCap).
Notation ewstep := (ewstep chanCap).
Notation tstep := (tstep chanCap).
Notation sruns := (sruns chanCap).

(** The next access of a worker after its recursive call. *)
Definition actAccess (p : list nat) (a : wact) : list access :=
  match a with
  | WLoadMask _ => [(PMask p, false)]
  | WStoreMask _ _ => [(PMask p, true)]
  | WStoreSlot i _ _ => [(PSlot p i, true)]
  | WSend _ _ => []
  end.
(** After [Parallel] has returned its caller reads the result (branch.go:111, 140, 192, 215-219, 296-297). *)
Definition callerReads (p : list nat) (need : nat) (ch : list (bool * Z)) (slots : nat) : list access :=
  let reads := (PMask p, false) :: map (fun i => (PSlot p i, false)) (seq 0 slots) in
  match need, ch with
  | O, _ => reads
  | S _, (false, _) :: _ => reads
  | _, _ => []
  end.
Fixpoint pending (p : list nat) (g : gprog) : list access :=
  match g with
  | GRet _ | GPanic => []
  | GLoad _ => [(PFlip, false)]
  | GStore _ _ => [(PFlip, true)]
  | GFork ws sh ch need _ _ =>
      callerReads p need ch (length (snd sh)) ++
      (fix all (ws : list worker) (i : nat) : list access :=
         match ws with
         | [] => []
         | w :: ws' => match w with WRun g' _ => pending (i :: p) g' | WAct a => actAccess p a | WGone => [] end ++ all ws' (S i)
         end) ws 0
  end.
Definition pendingW (p : list nat) (i : nat) (w : worker) : list access :=
  match w with WRun g _ => pending (i :: p) g | WAct a => actAccess p a | WGone => [] end.
Fixpoint pendingWs (p : list nat) (ws : list worker) (i : nat) : list access :=
  match ws with [] => [] | w :: ws' => pendingW p i w ++ pendingWs p ws' (S i) end.
Definition pendingT (i : nat) (t : thread) : list access :=
  match t with TProg g => pending [i] g | TGroup ws _ _ => pendingWs [i] ws 0 end.
Fixpoint pendingTs (l : list thread) (i : nat) : list access :=
  match l with [] => [] | t :: l' => pendingT i t ++ pendingTs l' (S i) end.

(** Two goroutines race for [v]. *)
Definition Race (v : place) (s : sys A X F) : Prop :=
  exists l1 a l2 b l3, pendingTs (snd (fst s)) 0 = l1 ++ a :: l2 ++ b :: l3 /\ fst a = v /\ conflict a b.

Lemma pending_fork p ws sh ch need acc k :
  pending p (GFork ws sh ch need acc k) = callerReads p need ch (length (snd sh)) ++ pendingWs p ws 0.
Proof.
  cbn [pending]. f_equal. generalize 0. induction ws as [|w ws IH]; intros i; [reflexivity|]. cbn [pendingWs]. rewrite <- IH. reflexivity.
Qed.

(** ** What the operations access *)

(** [Ask]: nothing is assigned. [Fill]: each worker assigns to its slot. [Mix]: also to the mask, and to [flipped]. *)
Inductive mode := Ask | Fill | Mix.
Definition trueOnly (md : mode) : bool := match md with Ask => false | _ => true end.

Fixpoint actOwn (md : mode) (i : nat) (a : wact) : Prop :=
  match a with
  | WLoadMask k => md = Mix /\ forall x, actOwn md i (k x)
  | WStoreMask _ k => md = Mix /\ actOwn md i k
  | WStoreSlot j _ k => md <> Ask /\ j = i /\ actOwn md i k
  | WSend _ _ => True
  end.
Inductive Own (md : mode) : gprog -> Prop :=
| ow_ret a : Own md (GRet a)
| ow_panic : Own md GPanic
| ow_load k : md = Mix -> (forall c, Own md (k c)) -> Own md (GLoad k)
| ow_store f k : md = Mix -> Own md k -> Own md (GStore f k)
| ow_fork idx ws sh ch need acc k : NoDup idx -> OwnWs md idx ws -> (forall b z s, Own md (k b z s)) -> Own md (GFork ws sh ch need acc k)
with OwnW (md : mode) : nat -> worker -> Prop :=
| oww_run i g fin : Own md g -> (forall a, actOwn md i (fin a)) -> OwnW md i (WRun g fin)
| oww_act i a : actOwn md i a -> OwnW md i (WAct a)
| oww_gone i : OwnW md i WGone
with OwnWs (md : mode) : list nat -> list worker -> Prop :=
| owws_nil : OwnWs md [] []
| owws_cons i idx w ws : OwnW md i w -> OwnWs md idx ws -> OwnWs md (i :: idx) (w :: ws).
Definition OwnT (md : mode) (t : thread) : Prop :=
  match t with TProg g => Own md g | TGroup ws _ _ => exists idx, NoDup idx /\ OwnWs md idx ws end.

Lemma own_load_inv md k : Own md (GLoad k) -> md = Mix /\ forall c, Own md (k c).
Proof. intros H. inversion H; subst; auto. Qed.
Lemma own_store_inv md f k : Own md (GStore f k) -> md = Mix /\ Own md k.
Proof. intros H. inversion H; subst; auto. Qed.
Lemma own_fork_inv md ws sh ch need acc k : Own md (GFork ws sh ch need acc k) ->
  exists idx, NoDup idx /\ OwnWs md idx ws /\ forall b z s, Own md (k b z s).
Proof. intros H. inversion H; subst. eauto. Qed.
Lemma ownW_run_inv md i g fin : OwnW md i (WRun g fin) -> Own md g /\ forall a, actOwn md i (fin a).
Proof. intros H. inversion H; subst; auto. Qed.
Lemma ownW_act_inv md i a : OwnW md i (WAct a) -> actOwn md i a.
Proof. intros H. inversion H; subst; auto. Qed.
Lemma ownWs_cons_inv md idx w ws : OwnWs md idx (w :: ws) -> exists i idx', idx = i :: idx' /\ OwnW md i w /\ OwnWs md idx' ws.
Proof. intros H. inversion H; subst. eauto. Qed.

Lemma ownWs_mid md ws1 w ws2 : forall idx, OwnWs md idx (ws1 ++ w :: ws2) ->
  exists i, OwnW md i w /\ forall w', OwnW md i w' -> OwnWs md idx (ws1 ++ w' :: ws2).
Proof.
  induction ws1 as [|v ws1 IH]; intros idx H; apply ownWs_cons_inv in H as (i & idx' & -> & H1 & H2).
  - exists i. split; auto. intros w' Hw. constructor; auto.
  - destruct (IH _ H2) as (j & Hj & Hr). exists j. split; auto. intros w' Hw. simpl. constructor; auto.
Qed.

Lemma own_step md :
  (forall c g c' g' new n, estep c g c' g' new n -> Own md g -> Own md g' /\ Forall (OwnT md) new) /\
  (forall c w l c' w' new n, ewstep c w l c' w' new n -> forall i, OwnW md i w -> OwnW md i w' /\ Forall (OwnT md) new).
Proof.
  apply estep_mut.
  - intros c k H. apply own_load_inv in H as [_ H]. auto.
  - intros c f k H. apply own_store_inv in H as [_ H]. auto.
  - intros c ws1 w ws2 l c' w' sh ch sh' ch' need acc k new n Hst IH He H.
    apply own_fork_inv in H as (idx & Hd & Hw & Hk). destruct (ownWs_mid _ _ _ _ _ Hw) as (i & Hi & Hr).
    destruct (IH _ Hi) as [H1 H2]. split; auto. econstructor; eauto.
  - intros c ws sh m ch need acc k H. apply own_fork_inv in H as (idx & Hd & Hw & Hk). split; auto. econstructor; eauto.
  - intros c ws sh m ch need acc k H. apply own_fork_inv in H as (idx & Hd & Hw & Hk). split; auto. constructor; auto. simpl. eauto.
  - intros c ws sh ch acc k H. apply own_fork_inv in H as (idx & Hd & Hw & Hk). split; auto. constructor; auto. simpl. eauto.
  - intros c g c' g' fin new n Hst IH i H. apply ownW_run_inv in H as [H1 H2]. destruct (IH H1). split; auto. constructor; auto.
  - intros c a fin i H. apply ownW_run_inv in H as [H1 H2]. split; auto. constructor; auto.
  - intros c m k i H. apply ownW_act_inv in H as [H1 H2]. split; auto. constructor; auto.
  - intros c m k i H. apply ownW_act_inv in H as [H1 H2]. split; auto. constructor; auto.
  - intros c j x k i H. apply ownW_act_inv in H as (H1 & H2 & H3). split; auto. constructor; auto.
  - intros c ok m i H. split; auto. constructor.
Qed.

Lemma own_runs md s s' : sruns s s' -> Forall (OwnT md) (snd (fst s)) -> Forall (OwnT md) (snd (fst s')).
Proof.
  induction 1 as [s|s s1 s2 Hnc Hst Hr IH]; intros H; auto. apply IH. inversion Hst as [c l1 t l2 n c' t' new k Ht]; subst. simpl in *.
  apply Forall_app in H as [H1 H2]. inversion H2 as [|? ? H3 H4]; subst.
  assert (OwnT md t' /\ Forall (OwnT md) new) as [H5 H6].
  { inversion Ht as [? ? ? ? ? ? He|? ws1 w ws2 l ? w' sh ch sh' ch' ? ? Hw Heff]; subst.
    - exact (proj1 (own_step md) _ _ _ _ _ _ He H3).
    - destruct H3 as (idx & Hd & Hws). destruct (ownWs_mid _ _ _ _ _ Hws) as (i & Hi & Hre).
      destruct (proj2 (own_step md) _ _ _ _ _ _ _ Hw i Hi) as [H5 H6]. split; auto. exists idx. auto. }
  apply Forall_app. split; auto. constructor; auto. apply Forall_app; auto.
Qed.

(** ** Pairs of accesses *)

Fixpoint pairs (R : access -> access -> Prop) (l : list access) : Prop :=
  match l with [] => True | a :: l' => Forall (R a) l' /\ pairs R l' end.

Lemma pairs_app R l1 l2 : pairs R l1 -> pairs R l2 -> (forall a b, In a l1 -> In b l2 -> R a b) -> pairs R (l1 ++ l2).
Proof.
  induction l1 as [|a l1 IH]; simpl; auto. intros [H1 H2] H3 H. split.
  - apply Forall_app. split; auto. apply Forall_forall. intros b Hb. apply H; auto.
  - apply IH; auto.
Qed.
Lemma pairs_mid R l1 a l2 b l3 : pairs R (l1 ++ a :: l2 ++ b :: l3) -> R a b.
Proof.
  induction l1 as [|x l1 IH]; simpl; intros [H1 H2]; auto. apply Forall_app in H1 as [_ H1]. inversion H1; auto.
Qed.
Lemma pairs_reads (R : access -> access -> Prop) l : (forall a b, (conflict a b -> False) -> R a b) -> Forall (fun a => snd a = false) l -> pairs R l.
Proof.
  intros HR. induction l as [|a l IH]; simpl; auto. intros H. inversion H as [|? ? H1 H2]; subst. split; auto.
  apply Forall_forall. intros b Hb. apply HR. intros [_ Hc]. rewrite Forall_forall in H2. rewrite H1, (H2 b Hb) in Hc. discriminate.
Qed.

(** The variable belongs to the goroutine at [p] or to one below it. *)
Definition within (p : list nat) (a : access) : Prop :=
  match fst a with PFlip => True | PMask q | PSlot q _ => exists r, q = r ++ p end.

Lemma callerReads_reads p need ch n : Forall (fun a => snd a = false /\ within p a) (callerReads p need ch n).
Proof.
  assert (Hr : Forall (fun a => snd a = false /\ within p a) ((PMask p, false) :: map (fun i => (PSlot p i, false)) (seq 0 n))).
  { constructor; [split; [auto|exists []; auto]|]. apply Forall_forall. intros a Ha. apply in_map_iff in Ha as (i & <- & _).
    split; [auto|exists []; auto]. }
  unfold callerReads. destruct need; auto. destruct ch as [|[[|] m] ch]; auto.
Qed.

Lemma within_below i p a : within (i :: p) a -> within p a.
Proof. unfold within. destruct (fst a); auto; intros (r & ->); exists (r ++ [i]); rewrite <- app_assoc; auto. Qed.

Lemma pendingWs_in p ws : forall i a, In a (pendingWs p ws i) -> exists j w, nth_error ws j = Some w /\ In a (pendingW p (i + j) w).
Proof.
  induction ws as [|w ws IH]; intros i a H; simpl in H; [contradiction|]. apply in_app_iff in H as [H|H].
  - exists 0, w. rewrite Nat.add_0_r. auto.
  - destruct (IH _ _ H) as (j & w' & H1 & H2). exists (S j), w'. rewrite Nat.add_succ_r. auto.
Qed.

Lemma within_all g : forall p a, In a (pending p g) -> within p a.
Proof.
  apply (gind (fun g => forall p a, In a (pending p g) -> within p a) (fun w => forall p i a, In a (pendingW p i w) -> within p a)).
  - intros a p b [].
  - intros p b [].
  - intros k _ p a [<-|[]]. exact Logic.I.
  - intros f k _ p a [<-|[]]. exact Logic.I.
  - intros ws sh ch need acc k Hw _ p a H. rewrite pending_fork in H. apply in_app_iff in H as [H|H].
    + pose proof (callerReads_reads p need ch (length (snd sh))) as Hc. rewrite Forall_forall in Hc. apply Hc; auto.
    + apply pendingWs_in in H as (j & w & H1 & H2). apply nth_error_In in H1. rewrite Forall_forall in Hw. eapply Hw; eauto.
  - intros g0 fin IH p i a H. apply within_below with i. apply IH. exact H.
  - intros a p i b H. destruct a; simpl in H; try (destruct H as [<-|[]]; exists []; auto). contradiction.
  - intros p i a [].
Qed.

(** Programs that only ask assign nothing. *)
Lemma ask_reads g : Own Ask g -> forall p, Forall (fun a => snd a = false) (pending p g).
Proof.
  apply (gind (fun g => Own Ask g -> forall p, Forall (fun a => snd a = false) (pending p g))
     (fun w => forall j, OwnW Ask j w -> forall p i, Forall (fun a => snd a = false) (pendingW p i w))).
  - constructor.
  - constructor.
  - intros k _ H p. constructor; auto.
  - intros f k _ H. apply own_store_inv in H as [H _]. discriminate.
  - intros ws sh ch need acc k Hw _ H p. rewrite pending_fork. apply Forall_app. split.
    + eapply Forall_impl; [|apply callerReads_reads]. simpl. tauto.
    + apply own_fork_inv in H as (idx & _ & H & _). apply Forall_forall. intros a Ha.
      apply pendingWs_in in Ha as (j & w & H1 & H2). apply nth_error_split in H1 as (l1 & l2 & -> & _).
      destruct (ownWs_mid _ _ _ _ _ H) as (i & Hi & _). apply Forall_app in Hw as [_ Hw]. inversion Hw as [|? ? Hw1 _]; subst.
      specialize (Hw1 i Hi p (0 + j)). rewrite Forall_forall in Hw1. auto.
  - intros g0 fin IH j H p i. apply ownW_run_inv in H as [H _]. apply IH. exact H.
  - intros a j H p i. apply ownW_act_inv in H. destruct a; simpl in *; try (repeat constructor; fail).
    + destruct H; discriminate.
    + destruct H; congruence.
  - constructor.
Qed.

Lemma ask_readsT t : OwnT Ask t -> forall i, Forall (fun a => snd a = false) (pendingT i t).
Proof.
  destruct t as [g|ws sh ch]; simpl; [intros H i; apply ask_reads; exact H|]. intros (idx & _ & H) i.
  apply Forall_forall. intros a Ha. apply pendingWs_in in Ha as (j & w & H1 & H2). apply nth_error_split in H1 as (l1 & l2 & -> & _).
  destruct (ownWs_mid _ _ _ _ _ H) as (x & Hx & _). destruct w as [g fin|b|]; simpl in H2; [| |contradiction].
  - apply ownW_run_inv in Hx as [Hx _]. pose proof (ask_reads g Hx (j :: [i])) as Hf. rewrite Forall_forall in Hf. auto.
  - apply ownW_act_inv in Hx. destruct b; simpl in *; try contradiction; destruct Hx; try discriminate; try congruence.
Qed.

(** In the others no two goroutines race for a slot, nor for anything if the mask and [flipped] are not assigned. *)
Definition mild (md : mode) (a b : access) : Prop := conflict a b -> md = Mix /\ isSlot (fst a) = false.

Lemma mild_no md a b : (conflict a b -> False) -> mild md a b.
Proof. intros H Hc. contradiction (H Hc). Qed.

Lemma gone_pending p ws : alive ws = 0 -> forall i, pendingWs p ws i = [].
Proof.
  induction ws as [|w ws IH]; intros H i; auto. unfold alive in *. simpl in H. destruct w; simpl in H; try discriminate. simpl. apply IH. exact H.
Qed.

Lemma ownWs_nth md ws : forall idx j w, OwnWs md idx ws -> nth_error ws j = Some w -> exists i, nth_error idx j = Some i /\ OwnW md i w.
Proof.
  induction ws as [|v ws IH]; intros idx [|j] w H Hj; simpl in Hj; try discriminate; apply ownWs_cons_inv in H as (i & idx' & -> & H1 & H2).
  - inversion Hj; subst. exists i. auto.
  - destruct (IH _ _ _ H2 Hj) as (x & H3 & H4). exists x. auto.
Qed.

(** What a worker is about to access: [flipped], something of its own calls, the mask, or its slot. *)
Lemma ownW_access md i p j w a : OwnW md i w -> In a (pendingW p j w) ->
  (md = Mix /\ isSlot (fst a) = false) \/ (within (j :: p) a /\ fst a <> PFlip) \/ fst a = PSlot p i.
Proof.
  intros H Ha. destruct w as [g fin|b|]; simpl in Ha; [| |contradiction].
  - apply ownW_run_inv in H as [H _]. pose proof (within_all g (j :: p) a Ha) as Hw. destruct (fst a) eqn:Ea; [|right; left; split; auto; discriminate|right; left; split; auto; discriminate].
    left. split; auto. clear Hw. revert p j Ha H.
    apply (gind (fun g => forall p j, In a (pending (j :: p) g) -> Own md g -> md = Mix)
      (fun w => forall i p j, In a (pendingW p j w) -> OwnW md i w -> md = Mix)).
    + intros x p j [].
    + intros p j [].
    + intros k _ p j _ Ho. apply own_load_inv in Ho. tauto.
    + intros f k _ p j _ Ho. apply own_store_inv in Ho. tauto.
    + intros ws sh ch need acc k Hws _ p j Hin Ho. rewrite pending_fork in Hin. apply in_app_iff in Hin as [Hin|Hin].
      * exfalso. unfold callerReads in Hin. destruct need; [|destruct ch as [|[[|] m] ch]; try contradiction];
          (destruct Hin as [<-|Hin]; [discriminate|apply in_map_iff in Hin as (x & <- & _); discriminate]).
      * apply pendingWs_in in Hin as (x & w & H1 & H2). apply own_fork_inv in Ho as (idx & _ & Ho & _).
        destruct (ownWs_nth _ _ _ _ _ Ho H1) as (y & _ & Hy). apply nth_error_In in H1. rewrite Forall_forall in Hws. eapply Hws; eauto.
    + intros g0 fin0 IH i0 p j Hin Ho. apply ownW_run_inv in Ho as [Ho _]. eapply IH; eauto.
    + intros b i0 p j Hin Ho. destruct b; simpl in Hin; try (destruct Hin as [<-|[]]; discriminate). contradiction.
    + intros i0 p j [].
  - apply ownW_act_inv in H. destruct b as [k|m k|s x k|ok m]; simpl in *; try contradiction.
    + destruct Ha as [<-|[]]. left. split; [tauto|reflexivity].
    + destruct Ha as [<-|[]]. left. split; [tauto|reflexivity].
    + destruct Ha as [<-|[]]. right. right. destruct H as (_ & -> & _). reflexivity.
Qed.

Lemma suffix_cons_inj {Y} (r r' p : list Y) i j : r ++ i :: p = r' ++ j :: p -> i = j.
Proof.
  intros H. assert (Hl : length r = length r') by (apply (f_equal (@length Y)) in H; rewrite !app_length in H; simpl in H; lia).
  revert r' H Hl. induction r as [|x r IH]; intros [|y r'] H Hl; simpl in *; try discriminate; inversion H; subst; eauto.
Qed.
Lemma suffix_cons_no {Y} (r p : list Y) i : r ++ i :: p = p -> False.
Proof. intros H. apply (f_equal (@length Y)) in H. rewrite app_length in H. simpl in H. lia. Qed.

Lemma workers_mild md p j w a i j' w' a' i' : OwnW md i w -> OwnW md i' w' -> j <> j' -> i <> i' ->
  In a (pendingW p j w) -> In a' (pendingW p j' w') -> mild md a a'.
Proof.
  intros H H' Hj Hi Ha Ha' [Hc _].
  destruct (ownW_access _ _ _ _ _ _ H Ha) as [?|[[Hw Hf]|Hs]]; auto;
    destruct (ownW_access _ _ _ _ _ _ H' Ha') as [[? Hsl]|[[Hw' Hf']|Hs']]; rewrite ?Hc in *; auto; exfalso.
  - unfold within in *. rewrite Hc in Hw. destruct (fst a') as [|q|q x]; [congruence| |]; destruct Hw as (r & ->), Hw' as (r' & E);
      apply suffix_cons_inj in E; congruence.
  - unfold within in Hw. rewrite Hc, Hs' in Hw. destruct Hw as (r & E). symmetry in E. apply suffix_cons_no in E. exact E.
  - unfold within in Hw'. rewrite Hs in Hw'. destruct Hw' as (r & E). symmetry in E. apply suffix_cons_no in E. exact E.
  - congruence.
Qed.

Lemma workers_pairs md p ws : (forall w j, In w ws -> pairs (mild md) (pendingW p j w)) -> forall idx i, NoDup idx -> OwnWs md idx ws ->
  pairs (mild md) (pendingWs p ws i).
Proof.
  induction ws as [|w ws IH]; intros Hp idx i Hd Ho; simpl; auto. apply ownWs_cons_inv in Ho as (x & idx' & -> & H1 & H2). inversion Hd as [|? ? Hx Hd']; subst.
  apply pairs_app.
  - apply Hp. left; auto.
  - eapply IH; eauto. intros; apply Hp; right; auto.
  - intros a b Ha Hb. apply pendingWs_in in Hb as (j & w' & Hj & Hb). destruct (ownWs_nth _ _ _ _ _ H2 Hj) as (y & Hy & Hyw).
    apply (workers_mild md p i w a x (S i + j) w' b y); auto; [lia|]. intros ->. apply Hx. eapply nth_error_In; eauto.
Qed.

Lemma own_pairs md g : forall p n, Own md g -> Tame chanCap true n g -> pairs (mild md) (pending p g).
Proof.
  apply (gind (fun g => forall p n, Own md g -> Tame chanCap true n g -> pairs (mild md) (pending p g))
    (fun w => forall p n j i, OwnW md i w -> TameW chanCap true n w -> pairs (mild md) (pendingW p j w))).
  - simpl; auto.
  - simpl; auto.
  - intros k _ p n _ _. simpl. auto.
  - intros f k _ p n _ _. simpl. auto.
  - intros ws sh ch need acc k Hw _ p n Ho Ht. rewrite pending_fork. apply own_fork_inv in Ho as (idx & Hd & Ho & _).
    destruct (tame_fork_inv _ _ _ _ _ _ _ _ _ Ht) as (n1 & n2 & F1 & F2 & F3 & F4 & _). specialize (F3 eq_refl).
    destruct need as [|need].
    + rewrite (gone_pending p ws) by lia. rewrite app_nil_r. apply pairs_reads; [apply mild_no|].
      eapply Forall_impl; [|apply callerReads_reads]. simpl. tauto.
    + assert (Ec : callerReads p (S need) ch (length (snd sh)) = []).
      { simpl. destruct ch as [|[[|] m] ch]; auto. inversion F3; discriminate. }
      rewrite Ec. simpl. apply (workers_pairs md p ws) with idx; auto.
      intros w j Hin. apply in_split in Hin as (l1 & l2 & ->). destruct (ownWs_mid _ _ _ _ _ Ho) as (i & Hi & _).
      destruct (tameWs_mid _ _ _ _ _ _ F4) as (a1 & a2 & Ha & _). apply Forall_app in Hw as [_ Hw]. inversion Hw; subst. eauto.
  - intros g0 fin IH p n j i Ho Ht. apply ownW_run_inv in Ho as [Ho _]. apply tameW_run_inv in Ht as [Ht _]. simpl. eauto.
  - intros a p n j i _ _. destruct a; simpl; auto.
  - simpl; auto.
Qed.

Lemma dead_groups n l : TameTs chanCap true n l -> noProg l -> forall i, pendingTs l i = [].
Proof.
  revert n. induction l as [|t l IH]; intros n H Hp i; auto. destruct H as (a & b & _ & Ha & Hb). inversion Hp; subst. simpl.
  rewrite (IH b Hb) by auto. rewrite app_nil_r. destruct t as [|ws sh ch]; [discriminate|]. destruct Ha as (_ & _ & Ha). apply gone_pending. auto.
Qed.

(** Every race is for a mask or for [flipped], and in an operation that may assign to these. *)
Theorem races md n g : New chanCap (trueOnly md) n g -> Own md g ->
  forall s v, sruns (start g) s -> Race v s -> md = Mix /\ isSlot v = false.
Proof.
  intros (n0 & Hn & Ht) Ho s v Hr (l1 & a & l2 & b & l3 & E & <- & Hc).
  assert (HO : Forall (OwnT md) (snd (fst s))) by (apply (own_runs md _ _ Hr); repeat constructor; auto).
  destruct (system chanCap (trueOnly md) n g None [] (fresh g)) with (s' := s) as (c' & g' & l & k & -> & _ & _ & H2 & H3); auto.
  { exists n0, 0. split; [lia|]. split; auto. exact Logic.I. }
  { lia. }
  { constructor. }
  cbn [fst snd] in E, HO. destruct md; cbn [trueOnly] in H2.
  - exfalso. assert (HF : Forall (fun a => snd a = false) (pendingTs (TProg g' :: l) 0)).
    { revert HO. generalize (TProg g' :: l) 0. intros ts. induction ts as [|t ts IH]; intros i HO; [constructor|]. inversion HO; subst. simpl.
      apply Forall_app. split; [apply ask_readsT; auto|]. apply IH; auto. }
    rewrite E in HF. apply Forall_app in HF as [_ HF]. inversion HF as [|? ? Ha HF2]; subst. apply Forall_app in HF2 as [_ HF2]. inversion HF2 as [|? ? Hb _]; subst.
    destruct Hc as [_ Hc]. rewrite Ha, Hb in Hc. discriminate.
  - destruct H2 as (x & y & _ & Hx & Hy). cbn [pendingTs] in E. rewrite (dead_groups y l Hy H3), app_nil_r in E. inversion HO; subst.
    pose proof (own_pairs Fill g' [0] x ltac:(assumption) Hx) as Hp. cbn [pendingT] in E. rewrite E in Hp. apply pairs_mid in Hp. auto.
  - destruct H2 as (x & y & _ & Hx & Hy). cbn [pendingTs] in E. rewrite (dead_groups y l Hy H3), app_nil_r in E. inversion HO; subst.
    pose proof (own_pairs Mix g' [0] x ltac:(assumption) Hx) as Hp. cbn [pendingT] in E. rewrite E in Hp. apply pairs_mid in Hp. auto.
Qed.

(** ** One goroutine *)

Inductive Solo : gprog -> Prop :=
| so_ret a : Solo (GRet a)
| so_panic : Solo GPanic
| so_load k : (forall c, Solo (k c)) -> Solo (GLoad k)
| so_store f k : Solo k -> Solo (GStore f k).

Lemma solo_step c g c' g' new n : estep c g c' g' new n -> Solo g -> Solo g' /\ new = [].
Proof. intros H Hs. inversion H; subst; inversion Hs; subst; auto. Qed.

Theorem solo_races g : Solo g -> forall s v, sruns (start g) s -> ~ Race v s.
Proof.
  intros Hs s v Hr. assert (exists g', snd (fst s) = [TProg g'] /\ Solo g') as (g' & E & Hg).
  { assert (Hst : exists g0, snd (fst (start g)) = [TProg g0] /\ Solo g0) by (exists g; auto). revert Hst. clear Hs. generalize dependent (start g). intros s0 Hr.
    induction Hr as [s|s s1 s2 Hnc Hst Hr IH]; auto. intros (g0 & E0 & H0). apply IH. inversion Hst as [c l1 t l2 n c' t' new k Ht]; subst. simpl in *.
    destruct l1 as [|u l1]; [|destruct l1; discriminate]. inversion E0; subst. inversion Ht as [? ? ? g1 ? ? He|]; subst.
    destruct (solo_step _ _ _ _ _ _ He H0) as [H1 ->]. exists g1. auto. }
  intros (l1 & a & l2 & b & l3 & E2 & _). rewrite E in E2. simpl in E2. rewrite app_nil_r in E2.
  destruct Hg; simpl in E2; destruct l1 as [|? [|? ?]]; simpl in E2; try discriminate; inversion E2; destruct l2; discriminate.
Qed.

End Races.

(** ** The operations *)

Section Ops.
Local Opaque maxTreeDepth fanout fb.
Context {E : Env}.

Section Rules.
Context {A X F : Type}.
Notation gprog := (gprog A X F).
Notation worker := (worker A X F).

Lemma own_lift md (r : res A) : Own (X := X) (F := F) md (liftG r).
Proof. destruct r; constructor. Qed.

Lemma own_bind md (g : gprog) f : (forall a, Own md (f a)) -> Own md g -> Own md (gbind g f).
Proof.
  intros Hf. apply (gind (fun g => Own md g -> Own md (gbind g f)) (fun _ => True)); auto.
  - intros a _. simpl. auto.
  - intros k IH H. apply own_load_inv in H as [H1 H2]. simpl. constructor; auto.
  - intros x k IH H. apply own_store_inv in H as [H1 H2]. simpl. constructor; auto.
  - intros ws sh ch need acc k _ IH H. apply own_fork_inv in H as (idx & H1 & H2 & H3). cbn [gbind]. apply ow_fork with idx; auto.
Qed.

Lemma own_seq md (W : nat -> worker) (k : bool -> Z -> shared X -> gprog) : (forall b z s, Own md (k b z s)) -> forall order acc sh,
  (forall i, In i order -> OwnW md i (W i)) -> Own md (seqLoop W order acc sh k).
Proof.
  intros Hk. induction order as [|i order IH]; intros acc sh HW; cbn [seqLoop]; auto.
  assert (Hgo : forall a, Own md (let '(ok, x, sh') := runActs a sh in if ok then seqLoop W order (acc + x) sh' k else k false acc sh')).
  { intros a. destruct (runActs a sh) as [[ok x] sh']. destruct ok; auto. apply IH. intros; apply HW; right; auto. }
  pose proof (HW i (or_introl eq_refl)) as Hi. destruct (W i) as [g fin|a|]; [|apply Hgo|constructor].
  apply ownW_run_inv in Hi as [Hi _]. apply own_bind; auto.
Qed.

Lemma own_parallel md limit d mask (W : nat -> worker) sh k : maskOk mask ->
  (forall i, In i (mask_indices mask) -> OwnW md i (W i)) -> (forall b z s, Own md (k b z s)) -> Own md (forkOrLoop limit d mask W sh k).
Proof.
  intros Hm HW Hk. unfold forkOrLoop. destruct (_ <? _)%Z; [|apply own_seq; auto].
  apply ow_fork with (mask_indices mask); auto; [apply mask_indices_NoDup; apply Hm|].
  clear Hm. induction (mask_indices mask) as [|i l IH]; simpl; constructor; [apply HW; left; auto|]. apply IH. intros; apply HW; right; auto.
Qed.

Lemma solo_lift (r : res A) : Solo (X := X) (F := F) (liftG r).
Proof. destruct r; constructor. Qed.
Lemma solo_bind (g : gprog) f : Solo g -> (forall a, Solo (f a)) -> Solo (gbind g f).
Proof. intros H Hf. induction H; simpl; auto; constructor; auto. Qed.
Lemma solo_seq (W : nat -> worker) (k : bool -> Z -> shared X -> gprog) : (forall b z s, Solo (k b z s)) -> forall order acc sh,
  (forall i g fin, In i order -> W i = WRun g fin -> Solo g) -> Solo (seqLoop W order acc sh k).
Proof.
  intros Hk. induction order as [|i order IH]; intros acc sh HW; cbn [seqLoop]; auto.
  assert (Hgo : forall a, Solo (let '(ok, x, sh') := runActs a sh in if ok then seqLoop W order (acc + x) sh' k else k false acc sh')).
  { intros a. destruct (runActs a sh) as [[ok x] sh']. destruct ok; auto. apply IH. intros; eapply HW; [right|]; eauto. }
  destruct (W i) as [g fin|a|] eqn:Ei; [|apply Hgo|constructor]. apply solo_bind; auto. eapply HW; [left|]; eauto.
Qed.
End Rules.

Context {T : Type} {K : Key T} {vok : T -> Prop} {KO : KeyOk K vok}.
Notation node := (node T).
Notation wf := (wf vok).

Ltac ownwork := constructor; [|simpl; auto; fail].
Ltac kids IH := apply IH; eapply wf_children; eauto.

Lemma combine_own fuel : forall limit eq f d n n2, wf d n -> wf d n2 -> Own Mix (combineC fuel limit eq f n n2 d).
Proof.
  induction fuel as [|k IH]; intros limit eq f d n n2 H1 H2; [constructor|].
  assert (Hflip : forall g : (T -> T -> T) -> res (node * Z), Own Mix (flipThen (X := node) f (fun f' => liftG (g f')))).
  { intros g. unfold flipThen. constructor; auto. intros [c|].
    - constructor; auto. intros [c'|]; [apply own_lift|constructor].
    - constructor; auto. constructor; auto. intros [c'|]; [apply own_lift|constructor]. }
  destruct n as [a|a b|l|m1 d1], n2 as [x|x y|l2|m2 d2]; cbn [combineC]; try apply own_lift; try (apply (Hflip (fun f' => combine (S k) (pargs eq f') _ _ d))).
  apply own_parallel; [apply maskOk_lor; eapply wf_mask; eauto| |intros; apply own_lift].
  intros i _. destruct (child d1 i) as [x|] eqn:Ex, (child d2 i) as [y|] eqn:Ey; try (apply oww_act; simpl; repeat split; auto; discriminate).
  apply oww_run; [kids IH|]. intros r. simpl. repeat split; auto; discriminate.
Qed.

Lemma difference_own fuel : forall limit d n n2, wf d n -> wf d n2 -> Own Fill (differenceC fuel limit n n2 d).
Proof.
  induction fuel as [|k IH]; intros limit d n n2 H1 H2; [constructor|].
  destruct n as [a|a b|l|m1 d1], n2 as [x|x y|l2|m2 d2]; cbn [differenceC]; try apply own_lift.
  apply own_parallel; [eapply wf_mask; eauto| |intros; apply own_lift].
  intros i _. destruct (child d1 i) as [x|] eqn:Ex, (child d2 i) as [y|] eqn:Ey; try (apply oww_act; simpl; repeat split; auto; discriminate).
  - apply oww_run; [kids IH|]. intros r. simpl. repeat split; auto; discriminate.
  - apply oww_run; [constructor|simpl; auto].
Qed.

Lemma intersection_own fuel : forall limit d n n2, wf d n -> wf d n2 -> Own Fill (intersectionC fuel limit n n2 d).
Proof.
  induction fuel as [|k IH]; intros limit d n n2 H1 H2; [constructor|].
  destruct n as [a|a b|l|m1 d1], n2 as [x|x y|l2|m2 d2]; cbn [intersectionC]; try apply own_lift.
  apply own_parallel; [apply maskOk_land; eapply wf_mask; eauto| |intros; apply own_lift].
  intros i _. destruct (child d1 i) as [x|] eqn:Ex, (child d2 i) as [y|] eqn:Ey; try (apply oww_run; [constructor|simpl; auto]; fail).
  apply oww_run; [kids IH|]. intros r. simpl. repeat split; auto; discriminate.
Qed.

Lemma where_own fuel : forall limit pred d n, wf d n -> Own Fill (whereC fuel limit pred n d).
Proof.
  induction fuel as [|k IH]; intros limit pred d n H1; [constructor|].
  destruct n as [a|a b|l|m1 d1]; cbn [whereC]; try apply own_lift.
  apply own_parallel; [eapply wf_mask; eauto| |intros; apply own_lift].
  intros i _. destruct (child d1 i) as [x|] eqn:Ex; [|apply oww_run; [constructor|simpl; auto]].
  apply oww_run; [kids IH|]. intros r. simpl. repeat split; auto; discriminate.
Qed.

Lemma reduce_own fuel : forall limit r d n, wf d n -> Own Fill (reduceC fuel limit r n d).
Proof.
  induction fuel as [|k IH]; intros limit r d n H1; [constructor|].
  destruct n as [a|a b|l|m1 d1]; cbn [reduceC]; try apply own_lift.
  apply own_parallel; [eapply wf_mask; eauto| |intros; apply own_lift].
  intros i _. destruct (child d1 i) as [x|] eqn:Ex; [|apply oww_run; [constructor|simpl; auto]].
  apply oww_run; [kids IH|]. intros r0. simpl. repeat split; auto; discriminate.
Qed.

Lemma subsetOf_own fuel : forall limit d n n2, wf d n -> wf d n2 -> Own Ask (subsetOfC fuel limit n n2 d).
Proof.
  induction fuel as [|k IH]; intros limit d n n2 H1 H2; [constructor|].
  destruct n as [a|a b|l|m1 d1], n2 as [x|x y|l2|m2 d2]; cbn [subsetOfC]; try apply own_lift.
  apply own_parallel; [apply maskOk_lor; eapply wf_mask; eauto| |intros; constructor].
  intros i _. destruct (child d1 i) as [x|] eqn:Ex, (child d2 i) as [y|] eqn:Ey; try (apply oww_act; simpl; auto; fail).
  apply oww_run; [kids IH|]. intros r. simpl. auto.
Qed.

Lemma equal_own fuel : forall limit eq d n n2, wf d n -> wf d n2 -> Own Ask (equalC fuel limit eq n n2 d).
Proof.
  induction fuel as [|k IH]; intros limit eq d n n2 H1 H2; [constructor|].
  destruct n as [a|a b|l|m1 d1], n2 as [x|x y|l2|m2 d2]; cbn [equalC]; try apply own_lift.
  destruct (m1 =? m2)%N; [|constructor].
  apply own_parallel; [eapply wf_mask; eauto| |intros; constructor].
  intros i _. destruct (child d1 i) as [x|] eqn:Ex, (child d2 i) as [y|] eqn:Ey; try (apply oww_run; [constructor|simpl; auto]; fail).
  apply oww_run; [kids IH|]. intros r. simpl. auto.
Qed.

(** Below the limit Combine runs in one goroutine. *)
Lemma combine_solo fuel : forall limit eq f d (n n2 : node), (limit <= Z.of_nat d)%Z -> Solo (combineC fuel limit eq f n n2 d).
Proof.
  induction fuel as [|k IH]; intros limit eq f d n n2 Hl; [constructor|].
  assert (Hflip : forall g : (T -> T -> T) -> res (node * Z), Solo (flipThen (X := node) f (fun f' => liftG (g f')))).
  { intros g. unfold flipThen. constructor. intros [c|].
    - constructor. intros [c'|]; [apply solo_lift|constructor].
    - constructor. constructor. intros [c'|]; [apply solo_lift|constructor]. }
  destruct n as [a|a b|l|m1 d1], n2 as [x|x y|l2|m2 d2]; cbn [combineC]; try apply solo_lift; try (apply (Hflip (fun f' => combine (S k) (pargs eq f') _ _ d))).
  unfold forkOrLoop. destruct (Z.ltb_spec (Z.of_nat d) limit); [lia|]. apply solo_seq; [intros; apply solo_lift|].
  intros i g fin _ Ei. destruct (child d1 i) as [x|], (child d2 i) as [y|]; inversion Ei; subst. apply IH. lia.
Qed.

End Ops.
