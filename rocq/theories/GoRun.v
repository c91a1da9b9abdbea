(** * GoRun: executing the model of Goroutines.v under a given schedule.

    A choice names a thread by its number (the caller is number 0) and a goroutine of it by its position, as in ConcRun.v.
    Used by the examples beside the theorems. *)
From Verif Require Import Base Bits Env Concurrency ConcRun Goroutines.

Section GoRun.
Context {A X F : Type}.
Notation gprog := (gprog A X F).
Notation worker := (worker A X F).
Notation thread := (thread A X F).
Notation shared := (shared X).
Variable chanCap : nat.

(** One step of a worker; [pick] is a step of the program it runs. *)
Definition wpick (pick : option F -> gprog -> option (option F * gprog * list thread * nat))
    (c : option F) (w : worker) (sh : shared) (ch : list (bool * Z)) : option (option F * worker * shared * list (bool * Z) * list thread * nat) :=
  match w with
  | WRun (GRet a) fin => Some (c, WAct (fin a), sh, ch, [], 0)
  | WRun g fin =>
      match pick c g with Some (c', g', new, n) => Some (c', WRun g' fin, sh, ch, new, n) | None => None end
  | WAct (WLoadMask k) => Some (c, WAct (k (fst sh)), sh, ch, [], 0)
  | WAct (WStoreMask m k) => Some (c, WAct k, (m, snd sh), ch, [], 0)
  | WAct (WStoreSlot j x k) => Some (c, WAct k, (fst sh, set_nth (snd sh) j x), ch, [], 0)
  | WAct (WSend ok m) => if length ch <? chanCap then Some (c, WGone, sh, ch ++ [(ok, m)], [], 0) else None
  | WGone => None
  end.

(** One step of the goroutine at [path]. *)
Fixpoint epick (path : list nat) (c : option F) (g : gprog) : option (option F * gprog * list thread * nat) :=
  match g with
  | GRet _ | GPanic => None
  | GLoad k => Some (c, k c, [], fresh (k c))
  | GStore f k => Some (Some f, k, [], fresh k)
  | GFork ws sh ch need acc k =>
      match path with
      | [] =>
          match need, ch with
          | O, _ => Some (c, k true acc sh, [TGroup ws sh ch], fresh (k true acc sh))
          | S need', (true, m) :: ch' => Some (c, GFork ws sh ch' need' (acc + m)%Z k, [], 0)
          | S _, (false, _) :: ch' => Some (c, k false acc sh, [TGroup ws sh ch'], fresh (k false acc sh))
          | S _, [] => None
          end
      | i :: path' =>
          match nth_error ws i with
          | Some w =>
              match wpick (epick path') c w sh ch with
              | Some (c', w', sh', ch', new, n) => Some (c', GFork (set_nth ws i w') sh' ch' need acc k, new, n)
              | None => None
              end
          | None => None
          end
      end
  end.

Definition tpick (path : list nat) (c : option F) (t : thread) : option (option F * thread * list thread * nat) :=
  match t with
  | TProg g => match epick path c g with Some (c', g', new, n) => Some (c', TProg g', new, n) | None => None end
  | TGroup ws sh ch =>
      match path with
      | i :: path' =>
          match nth_error ws i with
          | Some w =>
              match wpick (epick path') c w sh ch with
              | Some (c', w', sh', ch', new, n) => Some (c', TGroup (set_nth ws i w') sh' ch', new, n)
              | None => None
              end
          | None => None
          end
      | [] => None
      end
  end.

Definition tcrashedb (t : thread) : bool :=
  match t with
  | TProg g => crashedb g
  | TGroup ws _ _ => existsb (fun w => match w with WRun g _ => crashedb g | _ => false end) ws
  end.

Definition spick (choice : nat * list nat) (s : sys A X F) : option (sys A X F) :=
  let '(c, l, n) := s in
  if existsb tcrashedb l then None
  else match nth_error l (fst choice) with
       | Some t =>
           match tpick (snd choice) c t with
           | Some (c', t', new, k) => Some (c', set_nth l (fst choice) t' ++ new, n + k)
           | None => None
           end
       | None => None
       end.

Fixpoint ssched (cs : list (nat * list nat)) (s : sys A X F) : option (sys A X F) :=
  match cs with
  | [] => Some s
  | p :: cs' => match spick p s with Some s' => ssched cs' s' | None => None end
  end.

Lemma nth_error_set {Y} (ws : list Y) i w w' : nth_error ws i = Some w ->
  exists l1 l2, ws = l1 ++ w :: l2 /\ set_nth ws i w' = l1 ++ w' :: l2.
Proof.
  revert i. induction ws as [|a ws IH]; intros [|i] H; simpl in H; try discriminate.
  - inversion H; subst. exists [], ws. auto.
  - destruct (IH i H) as (l1 & l2 & E1 & E2). exists (a :: l1), l2. simpl. rewrite E2, E1 at 1. auto.
Qed.

Lemma wpick_step pick c w sh ch c' w' sh' ch' new n :
  (forall c g c' g' new n, pick c g = Some (c', g', new, n) -> estep chanCap c g c' g' new n) ->
  wpick pick c w sh ch = Some (c', w', sh', ch', new, n) ->
  exists l, ewstep chanCap c w l c' w' new n /\ effect chanCap l sh ch sh' ch'.
Proof.
  intros Hp H. destruct w as [g fin|a|]; [| |discriminate].
  - assert (Hrun : match pick c g with Some (c', g', new, n) => Some (c', WRun g' fin, sh, ch, new, n) | None => None end =
        Some (c', w', sh', ch', new, n) -> exists l, ewstep chanCap c (WRun g fin) l c' w' new n /\ effect chanCap l sh ch sh' ch').
    { destruct (pick c g) as [[[[c1 g1] new1] n1]|] eqn:Eg; [|discriminate]. intros E1. inversion E1; subst.
      eexists. split; [apply ew_run; apply Hp; eauto|]. simpl; auto. }
    destruct g as [a| |k0|f k0|ws0 sh0 ch0 need0 acc0 k0]; try (apply Hrun; exact H).
    cbn [wpick] in H. inversion H; subst. eexists. split; [apply ew_ret|]. simpl; auto.
  - destruct a as [kk|m kk|j x kk|ok m]; cbn [wpick] in H.
    + inversion H; subst. eexists. split; [apply ew_load|]. simpl; auto.
    + inversion H; subst. eexists. split; [apply ew_mask|]. simpl; auto.
    + inversion H; subst. eexists. split; [apply ew_slot|]. simpl; auto.
    + destruct (Nat.ltb_spec (length ch) chanCap); [|discriminate].
      inversion H; subst. eexists. split; [apply ew_send|]. simpl; auto.
Qed.

Lemma epick_step path : forall c g c' g' new n, epick path c g = Some (c', g', new, n) -> estep chanCap c g c' g' new n.
Proof.
  induction path as [|i path IH]; intros c g c' g' new n H; destruct g as [a| |k|f k|ws sh ch need acc k]; cbn [epick] in H;
    try discriminate; try (inversion H; subst; constructor; fail).
  - destruct need as [|need]; [inversion H; subst; constructor|]. destruct ch as [|[[|] m] ch]; inversion H; subst; constructor.
  - destruct (nth_error ws i) as [w|] eqn:Ei; [|discriminate].
    destruct (wpick (epick path) c w sh ch) as [[[[[[c1 w1] sh1] ch1] new1] n1]|] eqn:Ew; [|discriminate]. inversion H; subst.
    destruct (wpick_step _ _ _ _ _ _ _ _ _ _ _ IH Ew) as (l & H1 & H2).
    destruct (nth_error_set ws i w w1 Ei) as (l1 & l2 & -> & ->). eapply e_worker; eauto.
Qed.

Lemma tpick_step path c t c' t' new n : tpick path c t = Some (c', t', new, n) -> tstep chanCap c t c' t' new n.
Proof.
  destruct t as [g|ws sh ch]; cbn [tpick].
  - destruct (epick path c g) as [[[[c1 g1] new1] n1]|] eqn:Eg; [|discriminate]. intros H. inversion H; subst. constructor. eapply epick_step; eauto.
  - destruct path as [|i path]; [discriminate|]. destruct (nth_error ws i) as [w|] eqn:Ei; [|discriminate].
    destruct (wpick (epick path) c w sh ch) as [[[[[[c1 w1] sh1] ch1] new1] n1]|] eqn:Ew; [|discriminate]. intros H. inversion H; subst.
    destruct (wpick_step _ _ _ _ _ _ _ _ _ _ _ (epick_step path) Ew) as (l & H1 & H2).
    destruct (nth_error_set ws i w w1 Ei) as (l1 & l2 & -> & ->). eapply t_group; eauto.
Qed.

Lemma tcrashedb_ok t : tcrashed t -> tcrashedb t = true.
Proof.
  destruct t as [g|ws sh ch]; simpl; [apply crashedb_ok|]. intros (w & Hin & Hc). apply existsb_exists. exists w. split; auto.
  destruct w as [g fin|a|]; simpl in Hc; try contradiction. apply crashedb_ok; auto.
Qed.

(** What [ssched] reaches is reached by the model. *)
Theorem ssched_runs cs : forall s s', ssched cs s = Some s' -> sruns chanCap s s'.
Proof.
  induction cs as [|p cs IH]; intros s s' H; cbn [ssched] in H; [inversion H; subst; constructor|].
  destruct (spick p s) as [s1|] eqn:Ep; [|discriminate]. apply sruns_step with s1; auto.
  - destruct s as [[c l] n]. cbn [spick] in Ep. destruct (existsb tcrashedb l) eqn:Ec; [discriminate|].
    intros (t & Hin & Ht). apply tcrashedb_ok in Ht. simpl in Hin.
    assert (existsb tcrashedb l = true) by (apply existsb_exists; eauto). congruence.
  - destruct s as [[c l] n]. cbn [spick] in Ep. destruct (existsb tcrashedb l); [discriminate|].
    destruct (nth_error l (fst p)) as [t|] eqn:Et; [|discriminate].
    destruct (tpick (snd p) c t) as [[[[c' t'] new] k]|] eqn:Ek; [|discriminate]. inversion Ep; subst.
    destruct (nth_error_set l (fst p) t t' Et) as (l1 & l2 & -> & ->). rewrite <- app_assoc. simpl. constructor. eapply tpick_step; eauto.
Qed.

End GoRun.
