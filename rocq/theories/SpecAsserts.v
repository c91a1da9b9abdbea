(** * SpecAsserts: when the assertions of internal/pkg/test fail a test (C66). *)
From Coq Require Import List Bool Arith NArith Lia.
Import ListNotations.
From Verif Require Import Base Asserts.

Definition isString (m : msg) : Prop := m <> NotString.
(** A line for the log: the text of the assertion, then the caller's. *)
Definition lineOf (m1 : list N) (m2 : msg) : list N := match m2 with Msg x => match m1 with [] => x | _ => m1 ++ colon ++ x end | _ => m1 end.
Definition marked (t : testT) (line : list N) : testT := mkT true (t_log t ++ [line]).

Lemma failX_string now m1 m2 t : isString m2 -> failX now m2 (Msg m1) t = (marked t (lineOf m1 m2), if now then Exits else Returns false).
Proof. intros H. unfold failX, addMsg, lineOf, marked. destruct m2; try reflexivity. congruence. Qed.

(** An assertion whose condition holds changes nothing and answers true. *)
Lemma c66_holds (now : bool) m1 m2 t : check true now m2 m1 t = (t, Returns true).
Proof. reflexivity. Qed.
(** Otherwise it marks the test as failed and logs one line; Require also ends the test. *)
Lemma c66_fails now m1 m2 t : isString m2 -> check false now m2 (Msg m1) t = (marked t (lineOf m1 m2), if now then Exits else Returns false).
Proof. apply failX_string. Qed.
(** Each assertion on a condition is such a check, of its condition. *)
Lemma c66_conditions (now : bool) m t : isString m ->
  let ok (c : bool) (r : testT * ending bool) := t_failed (fst r) = orb (t_failed t) (negb c) /\ snd r = (if c then Returns true else if now then Exits else Returns false) in
  (forall b, ok b (True_ now b m t)) /\ (forall b, ok (negb b) (False_ now b m t)) /\ (forall eq x y, ok eq (Equal_ now eq x y m t)) /\
  (forall eq x y, ok (negb eq) (NotEqual_ now eq x y m t)) /\ (forall e x, ok e (NoError_ now e x m t)) /\
  (forall n x, ok (Nat.eqb n 0) (Empty_ now (Some n) x m t)) /\ (forall s x, ok s (ElementsMatch_ now s x m t)).
Proof.
  intros Hm ok.
  assert (H : forall c m1, ok c (check c now m (Msg m1) t)).
  { intros c m1. unfold ok, check. destruct c; cbn [fst snd negb]; [rewrite orb_false_r; auto|]. rewrite failX_string by auto. cbn. rewrite orb_true_r. auto. }
  repeat split; intros; apply H.
Qed.
(** A message that is not a string: the assertion panics instead, and the test is not marked. *)
Lemma c66_badMessage now m1 t : check false now NotString (Msg m1) t = (t, Panics false).
Proof. reflexivity. Qed.

(** Tests made of assertions: the test is marked as failed exactly if one that is reached does not hold. *)
Lemma c66_tests f : forall t, snd (runTest f t) <> Panics false ->
  t_failed (fst (runTest f t)) = orb (t_failed t) (negb (forallb id (reached f))).
Proof.
  induction f as [|now pass m1 m2 next IH]; intros t H; cbn [runTest reached] in *; [cbn; rewrite orb_false_r; reflexivity|].
  unfold check in *. destruct pass.
  - rewrite IH by auto. reflexivity.
  - destruct m2 as [|s|]; [| |cbn in H; congruence]; rewrite failX_string in * by discriminate; destruct now; cbn [forallb id andb negb] in *;
      rewrite ?orb_true_r; try reflexivity; rewrite IH by auto; reflexivity.
Qed.

(** Panic accepts exactly the functions that panic, if they do not panic with nil and the message is a string. *)
Lemma c66_panic now f m t : isString m -> snd (f t) <> Panics true ->
  match snd (f t) with
  | Panics _ => Panic_ now f m t = (fst (f t), Returns true)
  | Returns _ => Panic_ now f m t = (marked (fst (f t)) (lineOf noPanicText m), if now then Exits else Returns false)
  | Exits => Panic_ now f m t = (fst (f t), Exits)
  end.
Proof.
  intros Hm Hn. unfold Panic_. destruct (f t) as [t1 o]. cbn [fst snd] in *. destruct o as [[]|[]|]; try congruence; cbn [recovers negb]; auto.
  rewrite failX_string by auto. destruct now; reflexivity.
Qed.
(** With another message it accepts functions that return: the panic of failX is taken for theirs. *)
Lemma c66_panic_refuted : exists f m, snd (f newT) = Returns tt /\ forall now, Panic_ now f m newT = (newT, Returns true).
Proof. exists (fun t => (t, Returns tt)), NotString. split; [reflexivity|]. intros now. reflexivity. Qed.
(** A panic with nil is not accepted, but the test is not marked as failed either; NoPanic does not mark it, either. *)
Lemma c66_nil_refuted : exists f, snd (f newT) = Panics true /\
  (forall now m, Panic_ now f m newT = (newT, Returns false)) /\ forall now x m, NoPanic_ now f x m newT = (newT, Returns false).
Proof. exists (fun t => (t, Panics true)). repeat split. Qed.
(** NoPanic accepts the functions that return. *)
Lemma c66_noPanic now f x m t : isString m -> snd (f t) <> Panics true ->
  match snd (f t) with
  | Returns _ => NoPanic_ now f x m t = (fst (f t), Returns true)
  | Panics _ => NoPanic_ now f x m t = (marked (fst (f t)) (lineOf (panicText x) m), if now then Exits else Returns false)
  | Exits => NoPanic_ now f x m t = (fst (f t), Exits)
  end.
Proof.
  intros Hm Hn. unfold NoPanic_. destruct (f t) as [t1 o]. cbn [fst snd] in *. destruct o as [[]|[]|]; try congruence; auto. apply failX_string. auto.
Qed.

(** Fail marks the test. FailNow does the same: it does not end the test. *)
Lemma c66_fail m t : isString m -> Fail_ m t = (marked t (lineOf [] m), Returns false).
Proof. intros H. unfold Fail_, fail_, failX, addMsg, lineOf, marked. destruct m; try reflexivity. congruence. Qed.
Lemma c66_failNow_refuted : forall m t, FailNow_ m t = Fail_ m t /\ snd (FailNow_ m t) <> Exits.
Proof. intros m t. split; [reflexivity|]. unfold FailNow_, fail_, failX. destruct (addMsg _ _); discriminate. Qed.
(** NotEqual complains in the words of Equal. *)
Lemma c66_words_refuted : forall now x y m t, NotEqual_ now true x y m t = Equal_ now false x y m t.
Proof. reflexivity. Qed.
