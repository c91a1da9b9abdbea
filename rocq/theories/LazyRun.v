(** * LazyRun: from the program logic to runs

    What [wp] says of a program holds of every run of it: alone, or beside any number of other goroutines under any
    schedule. *)
From Verif Require Import Base Bits Env EnvFacts Node NodeWf Iter Tree TreeFacts SetApi SetFacts ExtraFacts Lazy LazyLists LazyFacts.

Section LazyRun.
Context {E : Env} {HE : EnvOk E} {T : Type} {K : Key T} {vok : T -> Prop} {KO : KeyOk K vok} {B : Boxes T}.
Notation lset := (lset T).
Notation prog := (prog T).
Notation lheap := (lheap T).
Notation sok := (sok vok).
Notation ghost := (@ghost T).
Notation wp := (wp (vok := vok)).
Notation lok := (lok (vok := vok)).
Notation cellOk := (cellOk (vok := vok)).

(** The heap [h] is in the situation described by [g]. *)
Definition heapOk (h : lheap) (g : ghost) : Prop :=
  length h = length g /\
  forall p src d, nth_error g p = Some (src, d) ->
    rangeOk src /\ exists o, nth_error h p = Some o /\ cellOk src d o.

Lemma heapOk_nil : heapOk [] [].
Proof. split; auto. intros [|p] src d; discriminate. Qed.

(** One action. *)
Lemma pstep_ok {A} (m : prog A) Q g G h m' h' : wp m Q g -> ext g G -> heapOk h G -> pstep m h = Some (m', h') ->
  exists G', ext G G' /\ heapOk h' G' /\ wp m' Q G'.
Proof.
  intros Hw Hx [Hlen Hh] Hs. destruct m as [a| | |p k|p f k|src k]; try discriminate; cbn [LazyFacts.wp pstep] in *.
  - destruct Hw as (src & d & Hp & Hk). apply Hx in Hp as (d' & Hp & _). destruct (Hh _ _ _ Hp) as (Hr & o & Ho & Hc).
    rewrite Ho in Hs. injection Hs as <- <-. exists G. split; [apply ext_refl|]. split; [split; auto|].
    pose proof (proj1 Hc) as Hd. subst d'. auto.
  - destruct Hw as (src & d & Hp & Hc & Hk). injection Hs as <- <-. apply Hx in Hp as (d' & Hp & _).
    exists (mark G p). split; [apply mark_ext|]. split; auto.
    assert (HpG : p < length G) by (apply nth_error_Some; congruence).
    unfold mark. rewrite Hp. split; [rewrite !set_nth_length; auto|].
    intros q s' dq Hq. destruct (Nat.eq_dec p q) as [<-|Hne].
    + rewrite nth_error_set_nth_eq in Hq by auto. injection Hq as <- <-. split; [apply (Hh _ _ _ Hp)|].
      exists (Some f). split; auto. apply nth_error_set_nth_eq. lia.
    + rewrite nth_error_set_nth_ne in Hq by auto. rewrite nth_error_set_nth_ne by auto. auto.
  - destruct Hw as (Hl & Hw & Hr & Hk). injection Hs as <- <-. exists (G ++ [(src, false)]).
    split; [apply ext_app|]. split; [|rewrite Hlen; auto]. split; [rewrite !app_length, Hlen; auto|].
    intros q s' dq Hq. destruct (Nat.lt_ge_cases q (length G)) as [Hlt|Hge].
    + rewrite nth_error_app1 in Hq by auto. rewrite nth_error_app1 by lia. auto.
    + rewrite nth_error_app2 in Hq by auto. rewrite nth_error_app2 by lia. rewrite Hlen.
      destruct (q - length G) as [|j] eqn:Ej; [|destruct j; discriminate].
      injection Hq as <- <-. split; auto. exists None. split; auto. split; auto. intros f [=].
Qed.

(** A program alone. *)
Lemma exec_ok {A} (m : prog A) : forall Q g G h, wp m Q g -> ext g G -> heapOk h G ->
  exists a h' G', exec m h = Ok (a, h') /\ ext G G' /\ heapOk h' G' /\ (exists g', ext g' G' /\ Q g' a).
Proof.
  induction m as [a| | |p k IH|p f k IH|src k IH]; intros Q g G h Hw Hx Hh; try (destruct Hw; fail).
  - exists a, h, G. split; auto. split; [apply ext_refl|]. split; auto. exists g. auto.
  - assert (Hp : exists o, nth_error h p = Some o).
    { destruct Hw as (src & d & Hp & _). apply Hx in Hp as (d' & Hp & _). apply Hh in Hp as (_ & o & Ho & _). eauto. }
    destruct Hp as [o Ho]. cbn [exec]. rewrite Ho.
    destruct (pstep_ok _ _ _ _ _ (k o) h Hw Hx Hh) as (G1 & X1 & H1 & W1); [cbn [pstep]; rewrite Ho; auto|].
    destruct (IH o Q G1 G1 h W1 (ext_refl _) H1) as (a & h' & G' & E1 & X2 & H2 & HQ).
    exists a, h', G'. split; auto. split; [eapply ext_trans; eauto|]. auto.
  - destruct (pstep_ok _ _ _ _ _ k (set_nth h p (Some f)) Hw Hx Hh) as (G1 & X1 & H1 & W1); auto.
    destruct (IH Q G1 G1 _ W1 (ext_refl _) H1) as (a & h' & G' & E1 & X2 & H2 & HQ).
    exists a, h', G'. split; auto. split; [eapply ext_trans; eauto|]. auto.
  - destruct (pstep_ok _ _ _ _ _ (k (length h)) (h ++ [None]) Hw Hx Hh) as (G1 & X1 & H1 & W1); auto.
    destruct (IH _ Q G1 G1 _ W1 (ext_refl _) H1) as (a & h' & G' & E1 & X2 & H2 & HQ).
    exists a, h', G'. split; auto. split; [eapply ext_trans; eauto|]. auto.
Qed.

(** Several goroutines: each has its own postcondition, and knows some part of the common situation. *)
Definition poolOk {A} (Qs : list (ghost -> A -> Prop)) (s : pool T A) (G : ghost) : Prop :=
  heapOk (snd s) G /\ Forall2 (fun m Q => exists g, ext g G /\ wp m Q g) (fst s) Qs.

Lemma Forall2_nth {X Y} (R : X -> Y -> Prop) l1 l2 i x : Forall2 R l1 l2 -> nth_error l1 i = Some x ->
  exists y, nth_error l2 i = Some y /\ R x y.
Proof.
  intros H. revert i. induction H as [|a b l1 l2 Hab H IH]; intros [|i] Hi; try discriminate; simpl in *.
  - injection Hi as <-. eauto.
  - auto.
Qed.

Lemma Forall2_set_nth {X Y} (R : X -> Y -> Prop) l1 l2 i x : Forall2 R l1 l2 ->
  (forall y, nth_error l2 i = Some y -> R x y) -> Forall2 R (set_nth l1 i x) l2.
Proof.
  intros H. revert i. induction H as [|a b l1 l2 Hab H IH]; intros [|i] Hi; simpl in *; constructor; auto.
Qed.

Lemma Forall2_weaken {X Y} (R R' : X -> Y -> Prop) l1 l2 : (forall x y, R x y -> R' x y) ->
  Forall2 R l1 l2 -> Forall2 R' l1 l2.
Proof. intros H. induction 1; constructor; auto. Qed.

Lemma poolStep_ok {A} Qs i (s : pool T A) G : poolOk Qs s G -> exists G', ext G G' /\ poolOk Qs (poolStep i s) G'.
Proof.
  intros [Hh Hf]. unfold poolStep. destruct (nth_error (fst s) i) as [m|] eqn:Hm;
    [|exists G; split; [apply ext_refl|split; auto]].
  destruct (pstep m (snd s)) as [[m' h']|] eqn:Hs; [|exists G; split; [apply ext_refl|split; auto]].
  destruct (Forall2_nth _ _ _ _ _ Hf Hm) as (Q & HQ & g & Hx & Hw).
  destruct (pstep_ok m Q g G (snd s) m' h' Hw Hx Hh Hs) as (G' & X1 & H1 & W1).
  exists G'. split; auto. split; auto. simpl. apply Forall2_set_nth.
  - eapply Forall2_weaken; [|exact Hf]. intros m1 Q1 (g1 & Hg1 & Hw1). exists g1. split; auto. eapply ext_trans; eauto.
  - intros Q' HQ'. rewrite HQ in HQ'. injection HQ' as <-. exists G'. split; [apply ext_refl|auto].
Qed.

Lemma poolRun_ok {A} Qs sched : forall (s : pool T A) G, poolOk Qs s G ->
  exists G', ext G G' /\ poolOk Qs (poolRun sched s) G'.
Proof.
  induction sched as [|i sched IH]; intros s G H; [exists G; split; [apply ext_refl|auto]|].
  destruct (poolStep_ok Qs i s G H) as (G1 & X1 & H1). destruct (IH _ _ H1) as (G2 & X2 & H2).
  exists G2. split; auto. eapply ext_trans; eauto.
Qed.

(** Every goroutine is running, or has ended with a result that meets its postcondition. *)
Lemma poolOk_thread {A} Qs (s : pool T A) G i m : poolOk Qs s G -> nth_error (fst s) i = Some m ->
  m <> PPanic /\ m <> PFuel /\
  (forall a, m = Ret a -> exists Q g, nth_error Qs i = Some Q /\ ext g G /\ Q g a) /\
  ((forall a, m <> Ret a) -> exists m' h', pstep m (snd s) = Some (m', h')).
Proof.
  intros [Hh Hf] Hm. destruct (Forall2_nth _ _ _ _ _ Hf Hm) as (Q & HQ & g & Hx & Hw).
  split; [intros ->; destruct Hw|]. split; [intros ->; destruct Hw|]. split; [intros a ->; eauto|].
  intros Hn. destruct m as [a| | |p k|p f k|src k]; try (destruct Hw; fail); simpl; eauto.
  - destruct (Hn a); auto.
  - destruct Hw as (src & d & Hp & _). apply Hx in Hp as (d' & Hp & _). apply Hh in Hp as (_ & o & -> & _). eauto.
Qed.

(** ** Every goroutine ends under a fair schedule *)

Lemma poolStep_other {A} i j (s : pool T A) : i <> j -> nth_error (fst (poolStep i s)) j = nth_error (fst s) j.
Proof.
  intros H. unfold poolStep. destruct (nth_error (fst s) i); auto. destruct (pstep _ _) as [[m' h']|]; auto.
  simpl. apply nth_error_set_nth_ne. auto.
Qed.

(** The first [n] steps of an endless schedule. *)
Definition prefix (sched : nat -> nat) (n : nat) : list nat := map sched (seq 0 n).

Lemma poolRun_app {A} l1 l2 (s : pool T A) : poolRun (l1 ++ l2) s = poolRun l2 (poolRun l1 s).
Proof. apply fold_left_app. Qed.

Lemma prefix_S sched n : prefix sched (S n) = prefix sched n ++ [sched n].
Proof. unfold prefix. rewrite seq_S, map_app. reflexivity. Qed.

(** A goroutine that is named again and again comes to its end. *)
Lemma fair_end {A} Qs (s0 : pool T A) G0 sched i : poolOk Qs s0 G0 ->
  (forall n, exists k, n <= k /\ sched k = i) ->
  forall m n, nth_error (fst (poolRun (prefix sched n) s0)) i = Some m ->
  exists n' a, n <= n' /\ nth_error (fst (poolRun (prefix sched n') s0)) i = Some (Ret a).
Proof.
  intros Hok Hfair.
  (* the next time the goroutine is named it takes a step *)
  assert (Hstep : forall m n, nth_error (fst (poolRun (prefix sched n) s0)) i = Some m ->
    exists k, n <= k /\ nth_error (fst (poolRun (prefix sched k) s0)) i = Some m /\ sched k = i).
  { intros m n Hm. destruct (Hfair n) as (k & Hk & Hi).
    assert (Hex : exists k0, n <= k0 /\ sched k0 = i /\ forall j, n <= j < k0 -> sched j <> i).
    { clear Hm. revert n Hk. induction k as [k IH] using lt_wf_ind. intros n Hk.
      destruct (le_lt_dec k n) as [Hle|Hlt].
      - exists n. split; auto. split; [|intros; lia]. assert (k = n) as -> by lia. auto.
      - destruct (existsb (fun j => Nat.eqb (sched j) i) (seq n (k - n))) eqn:Eb.
        + apply existsb_exists in Eb as (j & Hj & Hje). apply in_seq in Hj. apply Nat.eqb_eq in Hje.
          destruct (IH j) with (n := n) as (k0 & Hk0); auto; try lia. exists k0. auto.
        + exists k. split; auto. split; auto. intros j Hj Hji.
          assert (Ht : existsb (fun j => Nat.eqb (sched j) i) (seq n (k - n)) = true); [|congruence].
          apply existsb_exists. exists j. split; [apply in_seq; lia|apply Nat.eqb_eq; auto]. }
    clear k Hk Hi. destruct Hex as (k & Hk & Hi & Hno). exists k. split; auto. split; auto.
    clear Hi. revert Hno. induction Hk as [|k Hk IH]; intros Hno; auto.
    rewrite prefix_S, poolRun_app. unfold poolRun at 1. cbn [fold_left].
    rewrite poolStep_other; [apply IH; intros; apply Hno; lia|apply Hno; lia]. }
  assert (Hone : forall m m' h' n, nth_error (fst (poolRun (prefix sched n) s0)) i = Some m -> sched n = i ->
    pstep m (snd (poolRun (prefix sched n) s0)) = Some (m', h') ->
    nth_error (fst (poolRun (prefix sched (S n)) s0)) i = Some m').
  { intros m m' h' n Hm Hi Hs. rewrite prefix_S, poolRun_app. unfold poolRun at 1. cbn [fold_left].
    rewrite Hi. unfold poolStep. rewrite Hm, Hs. simpl. apply nth_error_set_nth_eq. apply nth_error_Some. congruence. }
  assert (Hgo : forall n, exists G, poolOk Qs (poolRun (prefix sched n) s0) G).
  { intros n. destruct (poolRun_ok Qs (prefix sched n) s0 G0 Hok) as (G & _ & HG). eauto. }
  induction m as [a| | |p k IH|p f k IH|src k IH]; intros n Hm.
  - exists n, a. auto.
  - destruct (Hgo n) as (G & HG). destruct (poolOk_thread Qs _ G i _ HG Hm) as (H & _). destruct H; auto.
  - destruct (Hgo n) as (G & HG). destruct (poolOk_thread Qs _ G i _ HG Hm) as (_ & H & _). destruct H; auto.
  - destruct (Hstep _ _ Hm) as (j & Hj & Hmj & Hi). destruct (Hgo j) as (G & HG).
    destruct (poolOk_thread Qs _ G i _ HG Hmj) as (_ & _ & _ & H). destruct H as (m' & h' & Hs); [discriminate|].
    pose proof (Hone _ _ _ _ Hmj Hi Hs) as Hm'. cbn [pstep] in Hs.
    destruct (nth_error (snd (poolRun (prefix sched j) s0)) p) as [o|].
    + injection Hs as <- _. destruct (IH o _ Hm') as (n' & a & Hn' & Ha). exists n', a. split; auto. lia.
    + injection Hs as <- _. destruct (Hgo (S j)) as (G' & HG').
      destruct (poolOk_thread Qs _ G' i _ HG' Hm') as (H & _). destruct H; auto.
  - destruct (Hstep _ _ Hm) as (j & Hj & Hmj & Hi).
    assert (Hm' := Hone _ _ _ _ Hmj Hi eq_refl). destruct (IH _ Hm') as (n' & a & Hn' & Ha).
    exists n', a. split; auto. lia.
  - destruct (Hstep _ _ Hm) as (j & Hj & Hmj & Hi).
    assert (Hm' := Hone _ _ _ _ Hmj Hi eq_refl). destruct (IH _ _ Hm') as (n' & a & Hn' & Ha).
    exists n', a. split; auto. lia.
Qed.

(** ** The stored copies *)

(** A pointer that has been moved to a frozen copy always points to a frozen copy with the same elements. *)
Lemma cells_stable (h h' : lheap) G G' p f : heapOk h G -> heapOk h' G' -> ext G G' -> nth_error h p = Some (Some f) ->
  exists f', nth_error h' p = Some (Some f') /\ sok f /\ sok f' /\ forall x, vok x -> mem (sel f) x = mem (sel f') x.
Proof.
  intros [L1 H1] [L2 H2] Hx Hp.
  assert (HpG : p < length G) by (rewrite <- L1; apply nth_error_Some; congruence).
  destruct (nth_error G p) as [[src d]|] eqn:Hg; [|apply nth_error_None in Hg; lia].
  destruct (H1 _ _ _ Hg) as (Hr & o & Ho & Hd & Hc). rewrite Hp in Ho. injection Ho as <-.
  apply Hx in Hg as (d' & Hg & Hdd). destruct (H2 _ _ _ Hg) as (_ & o' & Ho' & Hd' & Hc').
  rewrite Hdd in Hd' by auto. destruct o' as [f'|]; [|discriminate]. exists f'. split; auto.
  destruct (Hc f eq_refl) as [S1 M1]. destruct (Hc' f' eq_refl) as [S2 M2]. split; auto. split; auto.
  intros x Hxx. rewrite M1, M2; auto.
Qed.

(** What a memoSet points to: its source, or a frozen copy with the elements of the source. *)
Lemma cell_complete (h : lheap) G p src : heapOk h G -> lok G (LMemo p src) ->
  exists o, nth_error h p = Some o /\
    forall f, o = Some f -> sok f /\ forall x, vok x -> mem (sel f) x = mem (dl src) x.
Proof.
  intros [L1 H1] ((d & Hp) & Hw & Hl). destruct (H1 _ _ _ Hp) as (Hr & o & Ho & Hd & Hc).
  exists o. split; auto. intros f Hf. destruct (Hc f Hf). auto.
Qed.

End LazyRun.
