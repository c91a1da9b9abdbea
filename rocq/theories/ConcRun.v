(** * ConcRun: executing the concurrent model under a given schedule.

    A schedule is a list of choices. A choice names a goroutine by its position below the
    goroutine of the caller: [] is the caller, [i] its worker [i], [i; j] worker [j] of that
    worker, and so on. Used by the examples beside the theorems. *)
From Verif Require Import Base Bits Env Concurrency.

Section ConcRun.
Context {A X F : Type}.
Notation gprog := (gprog A X F).
Notation worker := (worker A X F).
Variable chanCap : nat.

(** One step of the goroutine at [path]. *)
Fixpoint gpick (path : list nat) (c : option F) (g : gprog) : option (option F * gprog) :=
  match g with
  | GRet _ | GPanic => None
  | GLoad k => Some (c, k c)
  | GStore f k => Some (Some f, k)
  | GFork ws sh ch need acc k =>
      match path with
      | [] =>
          match need, ch with
          | O, _ => Some (c, k true acc sh)
          | S need', (true, m) :: ch' => Some (c, GFork ws sh ch' need' (acc + m)%Z k)
          | S _, (false, _) :: _ => Some (c, k false acc sh)
          | S _, [] => None
          end
      | i :: path' =>
          match nth_error ws i with
          | Some (WRun (GRet a) fin) => Some (c, GFork (set_nth ws i (WAct (fin a))) sh ch need acc k)
          | Some (WRun g' fin) =>
              match gpick path' c g' with
              | Some (c', g'') => Some (c', GFork (set_nth ws i (WRun g'' fin)) sh ch need acc k)
              | None => None
              end
          | Some (WAct (WLoadMask kk)) => Some (c, GFork (set_nth ws i (WAct (kk (fst sh)))) sh ch need acc k)
          | Some (WAct (WStoreMask m kk)) => Some (c, GFork (set_nth ws i (WAct kk)) (m, snd sh) ch need acc k)
          | Some (WAct (WStoreSlot j x kk)) =>
              Some (c, GFork (set_nth ws i (WAct kk)) (fst sh, set_nth (snd sh) j x) ch need acc k)
          | Some (WAct (WSend ok m)) =>
              if length ch <? chanCap then Some (c, GFork (set_nth ws i WGone) sh (ch ++ [(ok, m)]) need acc k) else None
          | Some WGone | None => None
          end
      end
  end.

Fixpoint crashedb (g : gprog) : bool :=
  match g with
  | GPanic => true
  | GFork ws _ _ _ _ _ =>
      (fix any (ws : list worker) : bool :=
         match ws with
         | [] => false
         | w :: ws' => (match w with WRun g' _ => crashedb g' | _ => false end) || any ws'
         end) ws
  | _ => false
  end.

(** A whole schedule; [None] if a choice is not possible or the program has panicked. *)
Fixpoint sched (cs : list (list nat)) (c : option F) (g : gprog) : option (option F * gprog) :=
  match cs with
  | [] => Some (c, g)
  | p :: cs' =>
      if crashedb g then None
      else match gpick p c g with Some (c', g') => sched cs' c' g' | None => None end
  end.

Lemma nth_error_set_nth (ws : list worker) i w w' : nth_error ws i = Some w ->
  exists l1 l2, ws = l1 ++ w :: l2 /\ set_nth ws i w' = l1 ++ w' :: l2.
Proof.
  revert i. induction ws as [|a ws IH]; intros [|i] H; simpl in H; try discriminate.
  - inversion H; subst. exists [], ws. auto.
  - destruct (IH i H) as (l1 & l2 & E1 & E2). exists (a :: l1), l2. simpl. rewrite E2, E1 at 1. auto.
Qed.

Lemma gpick_step path : forall c g c' g', gpick path c g = Some (c', g') -> gstep chanCap c g c' g'.
Proof.
  induction path as [|i path IH]; intros c g c' g' H; destruct g as [a| |k|f k|ws sh ch need acc k]; cbn [gpick] in H;
    try discriminate; try (inversion H; subst; constructor; fail).
  - destruct need as [|need]; [inversion H; subst; apply s_done|]. destruct ch as [|[[|] m] ch]; inversion H; subst.
    + apply s_recv.
    + apply s_stop.
  - destruct (nth_error ws i) as [w|] eqn:Ei; [|discriminate].
    assert (HS : forall w' l c1 sh' ch', wstep chanCap c w l c1 w' -> effect chanCap l sh ch sh' ch' ->
       gstep chanCap c (GFork ws sh ch need acc k) c1 (GFork (set_nth ws i w') sh' ch' need acc k)).
    { intros w' l c1 sh' ch' Hst He. destruct (nth_error_set_nth ws i w w' Ei) as (l1 & l2 & -> & ->).
      eapply s_worker; eauto. }
    destruct w as [g fin|a|]; [| |discriminate].
    + assert (Hrun : match gpick path c g with
              | Some (c', g'') => Some (c', GFork (set_nth ws i (WRun g'' fin)) sh ch need acc k)
              | None => None
              end = Some (c', g') -> gstep chanCap c (GFork ws sh ch need acc k) c' g').
      { destruct (gpick path c g) as [[c1 g1]|] eqn:Eg; [|discriminate]. intros E1. inversion E1; subst.
        eapply HS; [apply w_run; apply IH; eauto|]. simpl; auto. }
      destruct g as [a| |k0|f k0|ws0 sh0 ch0 need0 acc0 k0]; try (apply Hrun; exact H).
      inversion H; subst. eapply HS; [apply w_ret|]. simpl; auto.
    + destruct a as [kk|m kk|j x kk|ok m].
      * inversion H; subst. eapply HS; [apply w_load|]. simpl; auto.
      * inversion H; subst. eapply HS; [apply w_mask|]. simpl; auto.
      * inversion H; subst. eapply HS; [apply w_slot|]. simpl; auto.
      * destruct (Nat.ltb_spec (length ch) chanCap); [|discriminate].
        inversion H; subst. eapply HS; [apply w_send|]. simpl; auto.
Qed.

Lemma crashedb_ok : forall g, crashed g -> crashedb g = true.
Proof.
  fix IH 2. intros g H. destruct H as [|ws sh ch need acc k g fin Hin Hc]; [reflexivity|].
  cbn [crashedb]. pose proof (IH _ Hc) as Hg. clear Hc.
  induction ws as [|w ws IHw]; [contradiction|]. destruct Hin as [->|Hin].
  - rewrite Hg. reflexivity.
  - rewrite IHw; auto. apply orb_true_r.
Qed.

(** What [sched] reaches is reached by the model. *)
Theorem sched_runs cs : forall c g c' g', sched cs c g = Some (c', g') -> runs chanCap c g c' g'.
Proof.
  induction cs as [|p cs IH]; intros c g c' g' H; cbn [sched] in H.
  - inversion H; subst. constructor.
  - destruct (crashedb g) eqn:Ec; [discriminate|]. destruct (gpick p c g) as [[c1 g1]|] eqn:Ep; [|discriminate].
    econstructor; [|eapply gpick_step; eauto|apply IH; eauto].
    intros Hc. apply crashedb_ok in Hc. congruence.
Qed.

End ConcRun.
