(** * SpecMemo: which calls memoise a lazy set, and what a memoised set is used for (C73). *)
From Verif Require Import Base Bits Env Node Iter Tree SetApi Lazy LazyCost.
Local Open Scope nat_scope.

Section SpecMemo.
Context {E : Env} {T : Type} {K : Key T} {B : Boxes T}.

(** The memoSet at [p] is no part of the expression, or of the iterator. Every expression the package builds is of this kind for
    addresses that were allocated later. *)
Fixpoint Avoids (p : nat) (e : lset T) : Prop :=
  match e with
  | LEmpty | LFrozen _ => True
  | LMemo q src => q <> p /\ Avoids p src
  | LUnion a b | LInter a b | LDiff a b => Avoids p a /\ Avoids p b
  | LWhere src _ | LMap src _ | LPow src => Avoids p src
  end.
Fixpoint AvoidsI (p : nat) (it : liter T) : Prop :=
  match it with
  | ItEmpty | ItFrozen _ => True
  | ItUnion i ob => AvoidsI p i /\ match ob with Some b => Avoids p b | None => True end
  | ItInter i b | ItDiff i b => AvoidsI p i /\ Avoids p b
  | ItWhere i _ | ItMap i _ | ItPow i _ _ _ _ => AvoidsI p i
  | ItCache i q _ => q <> p /\ AvoidsI p i
  end.

(** The program never stores to the pointer at [p], whatever it reads (so whatever other goroutines do), and its result satisfies [Q]. *)
Fixpoint Keeps {A} (p : nat) (Q : A -> Prop) (m : prog T A) : Prop :=
  match m with
  | Ret a => Q a
  | PPanic | PFuel => True
  | Load _ k => forall o, Keeps p Q (k o)
  | Store q _ k => q <> p /\ Keeps p Q k
  | Alloc _ k => forall q, q <> p -> Keeps p Q (k q)
  end.
(** Without a condition on the result. *)
Definition Spares {A} (p : nat) (m : prog T A) : Prop := Keeps p (fun _ => True) m.

Lemma keeps_mono {A} p (Q Q' : A -> Prop) m : (forall a, Q a -> Q' a) -> Keeps p Q m -> Keeps p Q' m.
Proof. intros H. induction m; cbn; auto. intros [? ?]; auto. Qed.

Lemma keeps_bind {A C} p (P : A -> Prop) (Q : C -> Prop) (m : prog T A) k : Keeps p P m -> (forall a, P a -> Keeps p Q (k a)) ->
  Keeps p Q (pbind m k).
Proof. intros H Hk. induction m; cbn in *; auto. destruct H; auto. Qed.

Lemma keeps_lift {A} p (Q : A -> Prop) (r : res A) : (forall a, Q a) -> Keeps p Q (lift r : prog T A).
Proof. intros H. destruct r; cbn; auto. Qed.

Lemma keeps_exec {A} p (Q : A -> Prop) (m : prog T A) : forall h a h', Keeps p Q m -> p < length h -> exec m h = Ok (a, h') ->
  nth_error h' p = nth_error h p /\ Q a.
Proof.
  induction m as [a0| | |q k IH|q f k IH|src k IH]; intros h a h' HK Hp; cbn in *; try discriminate.
  - intros [= <- <-]. auto.
  - destruct (nth_error h q) as [o|]; [|discriminate]. apply IH; auto.
  - destruct HK as [Hq HK]. intros He. destruct (IH (set_nth h q (Some f)) a h' HK) as [H1 H2]; [rewrite set_nth_length; auto|exact He|].
    rewrite H1, nth_error_set_nth_ne; auto.
  - intros He. destruct (IH (length h) (h ++ [None]) a h') as [H1 H2]; auto; [apply HK; lia|rewrite app_length; cbn; lia|].
    rewrite H1, nth_error_app1; auto.
Qed.

Ltac kb := first [eapply (keeps_bind _ (fun _ => True))|idtac].

Lemma range_keeps p (e : lset T) : Avoids p e -> Keeps p (AvoidsI p) (l_range e).
Proof.
  induction e as [|s|q src IH|a IHa b IHb|a IHa b IHb|a IHa b IHb|src IH pr|src IH m|src IH]; intros Ha; cbn [l_range];
    try (cbn; exact Logic.I); cbn [Avoids] in Ha.
  - destruct Ha as [Hq Ha]. intros [f|]; [exact Logic.I|]. intros o'.
    eapply keeps_bind with (P := AvoidsI p); [|intros i Hi; cbn; auto]. destruct o'; [exact Logic.I|auto].
  - eapply keeps_bind; [apply IHa; tauto|]. intros i Hi. cbn. tauto.
  - eapply keeps_bind; [apply IHa; tauto|]. intros i Hi. cbn. tauto.
  - eapply keeps_bind; [apply IHa; tauto|]. intros i Hi. cbn. tauto.
  - eapply keeps_bind; [apply IH; tauto|]. intros i Hi. cbn. tauto.
  - eapply keeps_bind; [apply IH; tauto|]. intros i Hi. cbn. tauto.
  - eapply keeps_bind; [apply IH; tauto|]. intros i Hi. cbn. tauto.
Qed.

Definition itKept (p : nat) (r : bool * liter T) : Prop := AvoidsI p (snd r).

Lemma loops_keep p n :
  (forall it, AvoidsI p it -> Keeps p (itKept p) (next n it)) /\
  (forall e el, Avoids p e -> Spares p (has n e el)) /\
  (forall it el, AvoidsI p it -> Spares p (hasLoop n it el)) /\
  (forall ss c it, AvoidsI p it -> Spares p (subLoop n ss c it)).
Proof.
  assert (Hl : forall {A C} (r : res A) (Q : C -> Prop) (k : A -> prog T C), (forall a, Keeps p Q (k a)) -> Keeps p Q (pbind (lift r) k)).
  { intros A C r Q k H. destruct r; cbn; auto. }
  induction n as [|n (IHn & IHh & IHl & IHs)]; [repeat split; intros; exact Logic.I|].
  split; [|split; [|split]].
  - intros it Ha. destruct it as [|i|i ob|i b|i b|i pr|i m|i fin mask elems value|i q seen]; cbn [AvoidsI] in Ha; cbn [next].
    + exact Logic.I.
    + apply Hl. intros [b i']. exact Logic.I.
    + destruct Ha as [Hi Hb]. eapply keeps_bind; [apply IHn; exact Hi|]. intros [[] i'] Hi'; [cbn; auto|].
      destruct ob as [b|]; [|cbn; auto]. eapply keeps_bind; [apply range_keeps; exact Hb|]. intros j Hj. apply IHn. cbn; auto.
    + destruct Ha as [Hi Hb]. eapply keeps_bind; [apply IHn; exact Hi|]. intros [[] i'] Hi'; [|cbn; auto].
      apply Hl. intros v. eapply keeps_bind; [apply (IHh b v Hb)|]. intros [] _; [cbn; auto|]. apply IHn. cbn; auto.
    + destruct Ha as [Hi Hb]. eapply keeps_bind; [apply IHn; exact Hi|]. intros [[] i'] Hi'; [|cbn; auto].
      apply Hl. intros v. eapply keeps_bind; [apply (IHh b v Hb)|]. intros [] _; [|cbn; auto]. apply IHn. cbn; auto.
    + eapply keeps_bind; [apply IHn; exact Ha|]. intros [[] i'] Hi'; [|cbn; auto].
      apply Hl. intros v. destruct (pr v); [cbn; auto|]. apply IHn. exact Hi'.
    + eapply keeps_bind; [apply IHn; exact Ha|]. intros [ok i'] Hi'. cbn. exact Hi'.
    + destruct (wrap 64 (mask + 1) <? fin)%N; [apply Hl; intros v; exact Ha|].
      destruct (fin <? wrap 64 (mask + 1))%N; [exact Logic.I|].
      eapply keeps_bind; [apply IHn; exact Ha|]. intros [[] i'] Hi'; [|cbn; exact Hi'].
      apply Hl. intros v. apply Hl. intros w. exact Hi'.
    + destruct Ha as [Hq Hi]. eapply keeps_bind; [apply IHn; exact Hi|]. intros [[] i'] Hi'.
      * apply Hl. intros v. apply Hl. intros []; [apply IHn; cbn; auto|]. apply Hl. intros s'. cbn. auto.
      * destruct (sb_finish seen) as [f s']. cbn. auto.
  - intros e el Ha. unfold Spares in *. cbn [has]. destruct e as [|s|q src|a b|a b|a b|src pr|src m|src]; cbn [Avoids] in Ha.
    + exact Logic.I.
    + apply keeps_lift. auto.
    + intros [f|]; [apply keeps_lift; auto|apply IHh; tauto].
    + eapply keeps_bind; [apply IHh; tauto|]. intros [] _; [exact Logic.I|apply IHh; tauto].
    + eapply keeps_bind; [apply IHh; tauto|]. intros [] _; [apply IHh; tauto|exact Logic.I].
    + eapply keeps_bind; [apply IHh; tauto|]. intros [] _; [exact Logic.I|apply IHh; tauto].
    + destruct (pr el); [apply IHh; exact Ha|exact Logic.I].
    + eapply keeps_bind; [apply range_keeps; exact Ha|]. intros i Hi. apply IHl. exact Hi.
    + destruct (unbox el) as [ss|]; [|exact Logic.I].
      assert (Hr : Keeps p (fun _ : bool => True) (i <~ l_range src ;; subLoop n ss (s_count ss) i)).
      { eapply keeps_bind; [apply range_keeps; exact Ha|]. intros i Hi. apply IHs. exact Hi. }
      destruct src; try exact Hr. intros [f|]; [apply IHs; exact Logic.I|exact Hr].
  - intros it el Ha. unfold Spares in *. cbn [hasLoop]. eapply keeps_bind; [apply IHn; exact Ha|]. intros [[] i'] Hi'; [|exact Logic.I].
    apply Hl. intros v. destruct (veq el v); [exact Logic.I|]. apply IHl. exact Hi'.
  - intros ss c it Ha. unfold Spares in *. cbn [subLoop]. destruct (0 <? c)%Z; [|exact Logic.I].
    eapply keeps_bind; [apply IHn; exact Ha|]. intros [[] i'] Hi'; [|exact Logic.I].
    apply Hl. intros v. apply Hl. intros x. apply IHs. exact Hi'.
Qed.

Lemma next_keeps p it : AvoidsI p it -> Keeps p (itKept p) (l_next it).
Proof. apply (proj1 (loops_keep p (icost it))). Qed.

Lemma drain_keeps p n : forall it, AvoidsI p it -> Spares p (l_drain n it).
Proof.
  unfold Spares. induction n as [|n IH]; intros it Ha; [exact Logic.I|]. cbn [l_drain].
  eapply keeps_bind; [apply next_keeps; exact Ha|]. intros [[] i'] Hi'; [|exact Logic.I].
  destruct (l_value i') as [v| |]; cbn [lift pbind]; try exact Logic.I. eapply keeps_bind; [apply IH; exact Hi'|]. intros; exact Logic.I.
Qed.

Lemma toList_keeps p (e : lset T) : Avoids p e -> Spares p (l_toList e).
Proof. intros Ha. eapply keeps_bind; [apply range_keeps; exact Ha|]. intros i Hi. apply drain_keeps. exact Hi. Qed.

Lemma countLoop_keeps p k : forall it n limit, AvoidsI p it -> Spares p (countLoop k it n limit).
Proof.
  unfold Spares. induction k as [|k IH]; intros it n limit Ha; cbn [countLoop]; destruct (n <? limit)%Z; try exact Logic.I.
  eapply keeps_bind; [apply next_keeps; exact Ha|]. intros [[] i'] Hi'; [apply IH; exact Hi'|exact Logic.I].
Qed.

Lemma fastIsEmpty_keeps p (e : lset T) : Spares p (l_fastIsEmpty e).
Proof.
  unfold Spares. induction e; cbn [l_fastIsEmpty]; try exact Logic.I; auto.
  - intros [f|]; [exact Logic.I|exact IHe].
  - eapply keeps_bind; [exact IHe|]. intros; exact Logic.I.
Qed.

Lemma pow2_keeps p c (Q : Z -> Prop) : (forall n, Q n) -> Keeps p Q (pow2 c : prog T Z).
Proof. intros H. unfold pow2. destruct (c <? 64)%Z; cbn; auto. Qed.

Lemma fastCount_keeps p (e : lset T) : Spares p (l_fastCount e).
Proof.
  unfold Spares. induction e; cbn [l_fastCount]; try exact Logic.I; auto.
  - intros [f|]; [exact Logic.I|exact IHe].
  - eapply keeps_bind; [exact IHe|]. intros [c|] _; [|exact Logic.I]. eapply (keeps_bind p (fun _ => True)); [apply pow2_keeps; auto|]. intros; exact Logic.I.
Qed.

Lemma base_keeps p r (e : lset T) limit : Avoids p e -> Spares p (base_countUpTo r (l_range e) limit).
Proof.
  intros Ha. destruct r; [exact Logic.I|]. eapply keeps_bind; [apply range_keeps; exact Ha|]. intros i Hi. apply countLoop_keeps. exact Hi.
Qed.

Lemma countUpTo_keeps p (e : lset T) : forall fast limit, Avoids p e -> Spares p (l_countUpTo_ fast e limit).
Proof.
  unfold Spares.
  assert (Hb : forall (e : lset T) (fast : bool) r limit, Avoids p e ->
    Keeps p (fun _ => True) (if fast then Ret r else c <~ base_countUpTo r (l_range e) limit ;; Ret (Some c))).
  { intros e0 [] r limit Ha; [exact Logic.I|]. eapply keeps_bind; [apply base_keeps; exact Ha|]. intros; exact Logic.I. }
  induction e as [|s|q src IH|a IHa b IHb|a _ b _|a _ b _|src _ pr|src _ m|src _]; intros fast limit Ha; cbn [l_countUpTo_];
    try exact Logic.I; try (apply Hb; exact Ha).
  - intros [f|]; [exact Logic.I|]. apply IH. apply Ha.
  - eapply keeps_bind with (P := fun _ => True); [|intros r _; apply Hb; exact Ha]. destruct Ha as [Aa Ab].
    assert (Hrest : Keeps p (fun _ => True)
      (eb <~ l_fastIsEmpty b ;;
       match eb with
       | Some true => l_countUpTo_ false a limit
       | _ =>
           ca <~ l_countUpTo_ true a limit ;;
           if match ca with Some c => (c =? limit)%Z | None => false end then Ret ca
           else cb <~ l_countUpTo_ true b limit ;;
                if match cb with Some c => (c =? limit)%Z | None => false end then Ret cb else Ret None
       end)).
    { eapply keeps_bind; [apply fastIsEmpty_keeps|].
      assert (Hin : Keeps p (fun _ => True) (ca <~ l_countUpTo_ true a limit ;;
           if match ca with Some c => (c =? limit)%Z | None => false end then Ret ca
           else cb <~ l_countUpTo_ true b limit ;;
                if match cb with Some c => (c =? limit)%Z | None => false end then Ret cb else Ret None)).
      { eapply keeps_bind; [apply IHa; exact Aa|]. intros ca _.
        destruct (match ca with Some c => (c =? limit)%Z | None => false end); [exact Logic.I|].
        eapply keeps_bind; [apply IHb; exact Ab|]. intros cb _.
        destruct (match cb with Some c => (c =? limit)%Z | None => false end); exact Logic.I. }
      intros [[]|] _; [apply IHa; exact Aa|exact Hin|exact Hin]. }
    eapply keeps_bind; [apply fastIsEmpty_keeps|]. intros [[]|] _; [apply IHb; exact Ab|exact Hrest|exact Hrest].
  - eapply keeps_bind with (P := fun _ => True); [|intros r _; apply Hb; exact Ha].
    eapply keeps_bind; [apply fastCount_keeps|]. intros [c|] _; [|exact Logic.I].
    eapply (keeps_bind p (fun _ => True)); [apply pow2_keeps; auto|]. intros; exact Logic.I.
Qed.

Lemma countUpTo_call p (e : lset T) limit : Avoids p e -> Spares p (l_countUpTo e limit).
Proof. intros Ha. eapply keeps_bind; [apply countUpTo_keeps; exact Ha|]. intros [] _; exact Logic.I. Qed.

Lemma count_keeps p (e : lset T) : Avoids p e -> Spares p (l_count e).
Proof.
  unfold Spares. induction e; intros Ha; cbn [l_count]; try exact Logic.I; try (apply countUpTo_call; exact Ha).
  - intros [f|]; [exact Logic.I|]. apply IHe, Ha.
  - eapply keeps_bind; [apply IHe, Ha|]. intros. apply pow2_keeps. auto.
Qed.

Lemma isEmpty_keeps p (e : lset T) : Avoids p e -> Spares p (l_isEmpty e).
Proof.
  unfold Spares.
  assert (Hb : forall e : lset T, Avoids p e -> Keeps p (fun _ => True)
    (r <~ l_fastIsEmpty e ;; match r with Some b => Ret b | None => it <~ l_range e ;; '(ok, _) <~ l_next it ;; Ret (negb ok) end)).
  { intros e0 Ha. eapply keeps_bind; [apply fastIsEmpty_keeps|]. intros [b|] _; [exact Logic.I|].
    eapply keeps_bind; [apply range_keeps; exact Ha|]. intros i Hi. eapply keeps_bind; [apply next_keeps; exact Hi|].
    intros [ok i'] _. exact Logic.I. }
  induction e; intros Ha; cbn [l_isEmpty]; try exact Logic.I; try (apply Hb; exact Ha).
  - intros [f|]; [exact Logic.I|]. apply IHe, Ha.
  - apply IHe, Ha.
Qed.

Definition setKept (p : nat) (e : lset T) : Prop := Avoids p e.

Lemma freeze_keeps p (e : lset T) : Avoids p e -> Keeps p (setKept p) (l_freeze e).
Proof.
  assert (Hb : forall e : lset T, Avoids p e -> Keeps p (setKept p) (base_freeze e)).
  { intros e0 Ha q Hq. eapply keeps_bind; [apply toList_keeps; cbn; auto|]. intros _ _ [f|]; [exact Logic.I|exact Ha]. }
  induction e; intros Ha; cbn [l_freeze]; try exact Logic.I; try (apply Hb; exact Ha).
  intros [f|]; [exact Logic.I|]. apply IHe, Ha.
Qed.

Lemma hash_keeps p (e : lset T) seed : Avoids p e -> Spares p (l_hash e seed).
Proof.
  unfold Spares.
  assert (Hb : forall e : lset T, Avoids p e -> Keeps p (fun _ => True)
    (l <~ l_toList e ;; Ret (fold_left (fun h v => vhash v h) l (env_uintptr hashSeed seed)))).
  { intros e0 Ha. eapply keeps_bind; [apply toList_keeps; exact Ha|]. intros; exact Logic.I. }
  induction e; intros Ha; cbn [l_hash]; try exact Logic.I; try (apply Hb; exact Ha).
  intros [f|]; [apply (Hb (LFrozen f)); exact Logic.I|]. apply IHe, Ha.
Qed.

Lemma equalLoop_keeps p k : forall s n it, AvoidsI p it -> Spares p (equalLoop k s n it).
Proof.
  unfold Spares. induction k as [|k IH]; intros s n it Ha; cbn [equalLoop]; destruct (0 <? n)%Z; try exact Logic.I.
  - eapply keeps_bind; [apply next_keeps; exact Ha|]. intros [ok i'] _. exact Logic.I.
  - eapply keeps_bind; [apply next_keeps; exact Ha|]. intros [[] i'] Hi'; [|exact Logic.I].
    eapply keeps_bind; [apply (keeps_lift p (fun _ => True)); auto|]. intros v _.
    eapply keeps_bind; [apply (keeps_lift p (fun _ => True)); auto|]. intros [] _; [apply IH; exact Hi'|exact Logic.I].
  - eapply keeps_bind; [apply next_keeps; exact Ha|]. intros [ok i'] _. exact Logic.I.
Qed.

Lemma frozen_equalSet_keeps p s (t : lset T) : Avoids p t -> Spares p (frozen_equalSet s t).
Proof.
  intros Ha. unfold Spares.
  assert (Hr : Keeps p (fun _ => True) (it <~ l_range t ;; equalLoop (S (rem it)) s (s_count s) it)).
  { eapply keeps_bind; [apply range_keeps; exact Ha|]. intros i Hi. apply equalLoop_keeps. exact Hi. }
  destruct t; try exact Hr. apply keeps_lift. auto.
Qed.

Lemma frozen_isSubsetOf_keeps p s (t : lset T) : Avoids p t -> Spares p (frozen_isSubsetOf s t).
Proof.
  intros Ha. unfold Spares, frozen_isSubsetOf.
  assert (Hr : forall t : lset T, Avoids p t ->
    Keeps p (fun _ => True) (it <~ l_range t ;; subLoop (S (rem it + icost it)) s (s_count s) it)).
  { intros t0 H0. eapply keeps_bind; [apply range_keeps; exact H0|]. intros i Hi. apply (loops_keep p). exact Hi. }
  destruct t; try (apply Hr; exact Ha). intros [f|]; apply Hr; [exact Logic.I|exact Ha].
Qed.

Lemma freezeBoth_keeps p (s t : lset T) k : Avoids p s -> Avoids p t -> (forall f t', Avoids p t' -> Spares p (k f t')) ->
  Spares p (freezeBoth s t k).
Proof.
  intros Hs Ht Hk. eapply keeps_bind; [apply freeze_keeps; exact Hs|]. intros s' _. eapply keeps_bind; [apply freeze_keeps; exact Ht|].
  intros t' Ht'. destruct s'; try exact Logic.I. apply Hk. exact Ht'.
Qed.

Lemma equalSet_keeps p (e t : lset T) : Avoids p e -> Avoids p t -> Spares p (l_equalSet e t).
Proof.
  unfold Spares. induction e; intros Ha Ht; cbn [l_equalSet];
    try (apply freezeBoth_keeps; auto; intros; apply frozen_equalSet_keeps; auto; fail).
  - apply isEmpty_keeps. exact Ht.
  - apply frozen_equalSet_keeps. exact Ht.
  - intros [f|]; [apply frozen_equalSet_keeps; exact Ht|]. apply IHe; [apply Ha|exact Ht].
Qed.

Lemma equal_keeps p (e t : lset T) : Avoids p e -> Avoids p t -> Spares p (l_equal e t).
Proof.
  unfold Spares. induction e; intros Ha Ht; cbn [l_equal]; try (apply equalSet_keeps; auto; fail).
  intros [f|]; [apply frozen_equalSet_keeps; exact Ht|]. apply IHe; [apply Ha|exact Ht].
Qed.

Lemma isSubsetOf_keeps p (e t : lset T) : Avoids p e -> Avoids p t -> Spares p (l_isSubsetOf e t).
Proof.
  unfold Spares. induction e; intros Ha Ht; cbn [l_isSubsetOf];
    try (apply freezeBoth_keeps; auto; intros; apply frozen_isSubsetOf_keeps; auto; fail).
  - exact Logic.I.
  - apply frozen_isSubsetOf_keeps. exact Ht.
  - intros [f|]; [apply frozen_isSubsetOf_keeps; exact Ht|]. apply IHe; [apply Ha|exact Ht].
Qed.

(** ** The methods that do not memoise their receiver *)

Lemma c73_count_refuted p (src : lset T) : Avoids p src -> Spares p (l_count (LMemo p src)).
Proof. intros Ha [f|]; [exact Logic.I|apply count_keeps; exact Ha]. Qed.

Lemma c73_countUpTo_refuted p (src : lset T) limit : Avoids p src -> Spares p (l_countUpTo (LMemo p src) limit).
Proof.
  intros Ha. eapply (keeps_bind _ (fun _ => True)); [|intros [] _; exact Logic.I]. cbn [l_countUpTo_].
  intros [f|]; [exact Logic.I|apply countUpTo_keeps; exact Ha].
Qed.

Lemma c73_freeze_refuted p (src : lset T) : Avoids p src -> Spares p (l_freeze (LMemo p src)).
Proof.
  intros Ha [f|]; [exact Logic.I|]. apply (keeps_mono p (setKept p)); [auto|]. apply freeze_keeps; exact Ha.
Qed.

Lemma c73_hash_refuted p (src : lset T) seed : Avoids p src -> Spares p (l_hash (LMemo p src) seed).
Proof.
  intros Ha [f|]; [|apply hash_keeps; exact Ha]. exact (hash_keeps p (LFrozen f) seed Logic.I).
Qed.

Lemma c73_equalSet_refuted p (src t : lset T) : Avoids p src -> Avoids p t -> Spares p (l_equalSet (LMemo p src) t).
Proof. intros Ha Ht [f|]; [apply frozen_equalSet_keeps; exact Ht|apply equalSet_keeps; auto]. Qed.

Lemma c73_equal_refuted p (src t : lset T) : Avoids p src -> Avoids p t -> Spares p (l_equal (LMemo p src) t).
Proof. intros Ha Ht [f|]; [apply frozen_equalSet_keeps; exact Ht|apply equal_keeps; auto]. Qed.

Lemma c73_isSubsetOf_refuted p (src t : lset T) : Avoids p src -> Avoids p t -> Spares p (l_isSubsetOf (LMemo p src) t).
Proof. intros Ha Ht [f|]; [apply frozen_isSubsetOf_keeps; exact Ht|apply isSubsetOf_keeps; auto]. Qed.

Lemma c73_has_refuted p (src : lset T) el : Avoids p src -> Spares p (l_has (LMemo p src) el).
Proof.
  intros Ha. unfold l_has. generalize (cost (LMemo p src)) as n. intros [|n]; [exact Logic.I|]. unfold Spares. cbn [has].
  intros [f|]; [apply keeps_lift; auto|]. apply (loops_keep p). exact Ha.
Qed.

Lemma c73_isEmpty_refuted p (src : lset T) : Avoids p src -> Spares p (l_isEmpty (LMemo p src)).
Proof. intros Ha [f|]; [exact Logic.I|apply isEmpty_keeps; exact Ha]. Qed.

(** What this means: after such a call, however often it is made, the pointer is where it was, and the next call starts again from the
    source expression. *)
Lemma c73_again {A} p (m : prog T A) h a h' : Spares p m -> nth_error h p = Some None -> exec m h = Ok (a, h') ->
  nth_error h' p = Some None.
Proof.
  intros Hs Hp He. rewrite <- Hp. apply (keeps_exec p (fun _ => True) m h a h' Hs); auto. apply nth_error_Some. congruence.
Qed.

(** With the pointer there, the methods do all the work on the source expression. *)
Lemma c73_source p (src : lset T) h : nth_error h p = Some None ->
  exec (l_count (LMemo p src)) h = exec (l_count src) h /\
  (forall limit, exec (l_countUpTo (LMemo p src) limit) h = exec (l_countUpTo src limit) h) /\
  exec (l_freeze (LMemo p src)) h = exec (l_freeze src) h /\
  (forall seed, exec (l_hash (LMemo p src) seed) h = exec (l_hash src seed) h) /\
  (forall t, exec (l_equalSet (LMemo p src) t) h = exec (l_equalSet src t) h) /\
  (forall t, exec (l_equal (LMemo p src) t) h = exec (l_equal src t) h) /\
  (forall t, exec (l_isSubsetOf (LMemo p src) t) h = exec (l_isSubsetOf src t) h) /\
  exec (l_isEmpty (LMemo p src)) h = exec (l_isEmpty src) h.
Proof.
  intros Hp. repeat split; intros; try (cbn [l_count l_freeze l_hash l_equalSet l_equal l_isSubsetOf l_isEmpty exec]; rewrite Hp; reflexivity).
  unfold l_countUpTo. cbn [l_countUpTo_ pbind exec]. rewrite Hp. reflexivity.
Qed.

(** ** Range to the end memoises *)

Lemma exec_bind_inv {A C} (m : prog T A) (k : A -> prog T C) : forall h r, exec (pbind m k) h = Ok r ->
  exists a h', exec m h = Ok (a, h') /\ exec (k a) h' = Ok r.
Proof.
  induction m; intros h r He; simpl in *; try discriminate; eauto.
  destruct (nth_error h p); [|discriminate]. apply H. exact He.
Qed.

Definition memoised (h : lheap T) (p : nat) : Prop := exists f, nth_error h p = Some (Some f).

(** Memory only grows, and no pointer goes back to the source. *)
Lemma exec_grows {A} (m : prog T A) : forall h a h', exec m h = Ok (a, h') ->
  length h <= length h' /\ forall p, memoised h p -> memoised h' p.
Proof.
  induction m as [a0| | |q k IH|q f k IH|src k IH]; intros h a h' He; cbn in *; try discriminate.
  - injection He as <- <-. auto.
  - destruct (nth_error h q); [|discriminate]. eapply IH; eauto.
  - apply IH in He as [H1 H2]. rewrite set_nth_length in H1. split; [exact H1|]. intros p [g Hg]. apply H2.
    destruct (Nat.eq_dec q p) as [<-|Hne]; [|exists g; rewrite nth_error_set_nth_ne; auto].
    exists f. apply nth_error_set_nth_eq. apply nth_error_Some. congruence.
  - apply IH in He as [H1 H2]. rewrite app_length in H1. cbn in H1. split; [lia|]. intros p [g Hg]. apply H2. exists g.
    rewrite nth_error_app1; auto. apply nth_error_Some. congruence.
Qed.

Lemma next_cache p n : forall i seen h ok it' h', exec (next n (ItCache i p seen)) h = Ok ((ok, it'), h') -> p < length h ->
  (ok = true -> exists i' seen', it' = ItCache i' p seen') /\ (ok = false -> memoised h' p).
Proof.
  induction n as [|n IH]; intros i seen h ok it' h' He Hp; [discriminate|]. cbn [next] in He.
  apply exec_bind_inv in He as ([[] i'] & h1 & H1 & He).
  - destruct (l_value i') as [v| |]; cbn [lift pbind] in He; try discriminate.
    destruct (sb_has seen v) as [[]| |]; cbn [lift pbind] in He; try discriminate.
    + eapply IH; [exact He|]. apply exec_grows in H1. lia.
    + destruct (sb_add seen v) as [s'| |]; cbn [lift pbind exec] in He; try discriminate. injection He as <- <- <-.
      split; [eauto|discriminate].
  - destruct (sb_finish seen) as [f s']. cbn [exec] in He. injection He as <- <- <-. split; [discriminate|].
    intros _. exists f. apply nth_error_set_nth_eq. apply exec_grows in H1. lia.
Qed.

Lemma drain_cache p n : forall i seen h l h', exec (l_drain n (ItCache i p seen)) h = Ok (l, h') -> p < length h -> memoised h' p.
Proof.
  induction n as [|n IH]; intros i seen h l h' He Hp; [discriminate|]. cbn [l_drain] in He.
  apply exec_bind_inv in He as ([ok it'] & h1 & H1 & He). unfold l_next in H1.
  pose proof (proj1 (exec_grows _ _ _ _ H1)) as Hlen. destruct (next_cache p _ _ _ _ _ _ _ H1 Hp) as [Ht Hf]. destruct ok.
  - destruct (Ht eq_refl) as (i' & s' & ->). destruct (l_value (ItCache i' p s')) as [v| |]; cbn [lift pbind] in He; try discriminate.
    apply exec_bind_inv in He as (l1 & h2 & H2 & He). cbn in He. injection He as <- <-. eapply IH; [exact H2|lia].
  - cbn in He. injection He as <- <-. auto.
Qed.

Lemma c73_range p (src : lset T) h l h' : exec (l_toList (LMemo p src)) h = Ok (l, h') -> memoised h' p.
Proof.
  unfold l_toList. intros He. apply exec_bind_inv in He as (it & h1 & H1 & He). cbn [l_range exec] in H1.
  destruct (nth_error h p) as [[f|]|] eqn:Hp; try discriminate.
  - cbn in H1. injection H1 as <- <-. eapply exec_grows; [exact He|]. exists f. exact Hp.
  - apply exec_bind_inv in H1 as (i & h2 & H2 & H1). cbn in H1. injection H1 as <- <-.
    eapply drain_cache; [exact He|]. assert (p < length h) by (apply nth_error_Some; congruence). apply exec_grows in H2. lia.
Qed.

(** It stays so. *)
Lemma c73_stays {A} p (m : prog T A) h a h' : exec m h = Ok (a, h') -> memoised h p -> memoised h' p.
Proof. intros He. apply exec_grows in He. apply He. Qed.

(** And then every method uses the stored copy, without a look at the source. *)
Lemma c73_used p (src : lset T) h f : nth_error h p = Some (Some f) ->
  exec (l_count (LMemo p src)) h = exec (l_count (LFrozen f)) h /\
  (forall limit, exec (l_countUpTo (LMemo p src) limit) h = exec (l_countUpTo (LFrozen f) limit) h) /\
  (forall limit, exec (l_fastCountUpTo (LMemo p src) limit) h = exec (l_fastCountUpTo (LFrozen f) limit) h) /\
  exec (l_fastCount (LMemo p src)) h = exec (l_fastCount (LFrozen f)) h /\
  exec (l_isEmpty (LMemo p src)) h = exec (l_isEmpty (LFrozen f)) h /\
  exec (l_fastIsEmpty (LMemo p src)) h = exec (l_fastIsEmpty (LFrozen f)) h /\
  (forall el, exec (l_has (LMemo p src) el) h = exec (l_has (LFrozen f) el) h) /\
  (forall el, exec (l_fastHas (LMemo p src) el) h = exec (l_fastHas (LFrozen f) el) h) /\
  exec (l_toList (LMemo p src)) h = exec (l_toList (LFrozen f)) h /\
  exec (l_freeze (LMemo p src)) h = exec (l_freeze (LFrozen f)) h /\
  (forall seed, exec (l_hash (LMemo p src) seed) h = exec (l_hash (LFrozen f) seed) h) /\
  (forall t, exec (l_equalSet (LMemo p src) t) h = exec (l_equalSet (LFrozen f) t) h) /\
  (forall t, exec (l_equal (LMemo p src) t) h = exec (l_equal (LFrozen f) t) h) /\
  (forall t, exec (l_isSubsetOf (LMemo p src) t) h = exec (l_isSubsetOf (LFrozen f) t) h).
Proof.
  intros Hp. repeat split; intros;
    try (cbn [l_count l_freeze l_hash l_equalSet l_equal l_isSubsetOf l_isEmpty l_fastIsEmpty l_fastCount l_fastHas exec]; rewrite Hp; reflexivity).
  - unfold l_countUpTo. cbn [l_countUpTo_ pbind exec]. rewrite Hp. reflexivity.
  - unfold l_fastCountUpTo. cbn [l_countUpTo_ exec]. rewrite Hp. reflexivity.
  - unfold l_has. destruct (cost (LMemo p src)) as [|n] eqn:Hn; [discriminate Hn|]. cbn [has exec]. rewrite Hp. reflexivity.
  - unfold l_toList. cbn [l_range pbind exec]. rewrite Hp. reflexivity.
Qed.

(** New sets are made from the stored copy, too. *)
Lemma c73_built p (src : lset T) h f : nth_error h p = Some (Some f) ->
  (forall v, exec (l_with (LMemo p src) v) h = exec (l_with (LFrozen f) v) h) /\
  (forall v, exec (l_without (LMemo p src) v) h = exec (l_without (LFrozen f) v) h) /\
  (forall q, exec (l_where (LMemo p src) q) h = exec (l_where (LFrozen f) q) h) /\
  (forall m, exec (l_map (LMemo p src) m) h = exec (l_map (LFrozen f) m) h) /\
  (forall t, exec (l_union (LMemo p src) t) h = exec (l_union (LFrozen f) t) h) /\
  (forall t, exec (l_intersection (LMemo p src) t) h = exec (l_intersection (LFrozen f) t) h) /\
  (forall t, exec (l_difference (LMemo p src) t) h = exec (l_difference (LFrozen f) t) h) /\
  (forall t, exec (l_symmetricDifference (LMemo p src) t) h = exec (l_symmetricDifference (LFrozen f) t) h) /\
  exec (l_powerset (LMemo p src)) h = exec (l_powerset (LFrozen f)) h.
Proof.
  intros Hp. repeat split; intros;
    unfold l_with, l_without, l_where, l_map, l_union, l_intersection, l_difference, l_symmetricDifference, l_powerset;
    cbn [deref pbind exec]; rewrite Hp; reflexivity.
Qed.

(** ** Sets made before the receiver was memoised *)

Lemma deref_keeps p (e : lset T) : Avoids p e -> Keeps p (Avoids p) (deref e).
Proof. destruct e; cbn; auto. intros [H1 H2] [f|]; cbn; auto. Qed.

Lemma deref_memo_keeps p (src : lset T) : Avoids p src -> Keeps p (Avoids p) (deref (LMemo p src)).
Proof. intros H [f|]; cbn; auto. Qed.

Lemma memo_keeps p (e : lset T) : Avoids p e -> Keeps p (Avoids p) (l_memo e).
Proof. destruct e; cbn; intuition auto. Qed.

Lemma single_keeps p (v : T) : Keeps p (Avoids p) (single v).
Proof. unfold single. destruct (s_new [v]); cbn; auto. Qed.

Lemma fastEmpty_keeps p (e : lset T) : Spares p (fastEmpty e).
Proof. eapply keeps_bind; [apply fastIsEmpty_keeps|]. intros; exact Logic.I. Qed.

Lemma difference_keeps p (a b : lset T) : Avoids p a -> Avoids p b -> Keeps p (Avoids p) (difference a b).
Proof.
  intros Ha Hb. eapply keeps_bind; [apply fastEmpty_keeps|]. intros [] _; [exact Ha|].
  eapply keeps_bind; [apply fastEmpty_keeps|]. intros [] _; [exact Ha|]. apply memo_keeps. split; auto.
Qed.

Lemma intersection_keeps p (a b : lset T) : Avoids p a -> Avoids p b -> Keeps p (Avoids p) (intersection a b).
Proof.
  intros Ha Hb. eapply keeps_bind; [apply fastEmpty_keeps|]. intros [] _; [exact Logic.I|].
  eapply keeps_bind; [apply fastEmpty_keeps|]. intros [] _; [exact Logic.I|]. apply memo_keeps. split; auto.
Qed.

Lemma l_difference_keeps p (a b : lset T) : Avoids p a -> Avoids p b -> Keeps p (Avoids p) (l_difference a b).
Proof.
  intros Ha Hb. eapply keeps_bind; [apply deref_keeps; exact Ha|]. intros e He.
  pose proof (difference_keeps p e b He Hb) as H. destruct e; try exact H; exact Logic.I.
Qed.

Lemma l_union_keeps p (a b : lset T) : Avoids p a -> Avoids p b -> Keeps p (Avoids p) (l_union a b).
Proof.
  intros Ha Hb. eapply keeps_bind; [apply deref_keeps; exact Ha|]. intros e He.
  assert (H : Keeps p (Avoids p) (union e b)) by (apply memo_keeps; split; auto). destruct e; try exact H; exact Hb.
Qed.

(** A set that is made from a memoSet is made from what that points to at the time; it has no part in what the memoSet stores later. *)
Lemma c73_derived_refuted p (src : lset T) : Avoids p src ->
  (forall v, Keeps p (Avoids p) (l_with (LMemo p src) v)) /\
  (forall v, Keeps p (Avoids p) (l_without (LMemo p src) v)) /\
  (forall q, Keeps p (Avoids p) (l_where (LMemo p src) q)) /\
  (forall m, Keeps p (Avoids p) (l_map (LMemo p src) m)) /\
  (forall t, Avoids p t -> Keeps p (Avoids p) (l_union (LMemo p src) t)) /\
  (forall t, Avoids p t -> Keeps p (Avoids p) (l_intersection (LMemo p src) t)) /\
  (forall t, Avoids p t -> Keeps p (Avoids p) (l_difference (LMemo p src) t)) /\
  (forall t, Avoids p t -> Keeps p (Avoids p) (l_symmetricDifference (LMemo p src) t)) /\
  Keeps p (Avoids p) (l_powerset (LMemo p src)).
Proof.
  intros Ha. pose proof (deref_memo_keeps p src Ha) as Hd.
  assert (Hl : forall (r : res (set T)), Keeps p (Avoids p) (s' <~ lift r ;; Ret (LFrozen s'))) by (intros []; cbn; auto).
  repeat split.
  - intros v. eapply keeps_bind; [exact Hd|]. intros e He.
    assert (H : Keeps p (Avoids p) (t <~ single v ;; union e t)).
    { eapply keeps_bind; [apply single_keeps|]. intros t Ht. apply memo_keeps. split; auto. }
    destruct e; try exact H; try apply single_keeps; apply Hl.
  - intros v. eapply keeps_bind; [exact Hd|]. intros e He.
    assert (H : Keeps p (Avoids p) (t <~ single v ;; difference e t)).
    { eapply keeps_bind; [apply single_keeps|]. intros t Ht. apply difference_keeps; auto. }
    destruct e; try exact H; try exact Logic.I; apply Hl.
  - intros q. eapply keeps_bind; [exact Hd|]. intros e He. pose proof (memo_keeps p (LWhere e q) He) as H.
    destruct e; try exact H; exact Logic.I.
  - intros m. eapply keeps_bind; [exact Hd|]. intros e He. pose proof (memo_keeps p (LMap e m) He) as H.
    destruct e; try exact H; try exact Logic.I; apply Hl.
  - intros t Ht. eapply keeps_bind; [exact Hd|]. intros e He.
    assert (H : Keeps p (Avoids p) (union e t)) by (apply memo_keeps; split; auto). destruct e; try exact H; exact Ht.
  - intros t Ht. eapply keeps_bind; [exact Hd|]. intros e He. pose proof (intersection_keeps p e t He Ht) as H.
    destruct e; try exact H; exact Logic.I.
  - intros t Ht. eapply keeps_bind; [exact Hd|]. intros e He. pose proof (difference_keeps p e t He Ht) as H.
    destruct e; try exact H; exact Logic.I.
  - intros t Ht. eapply keeps_bind; [exact Hd|]. intros e He.
    assert (H : Keeps p (Avoids p) (st <~ l_difference e t ;; ts <~ l_difference t e ;; l_union st ts)).
    { eapply keeps_bind; [apply l_difference_keeps; auto|]. intros st Hst. eapply keeps_bind; [apply l_difference_keeps; auto|].
      intros ts Hts. apply l_union_keeps; auto. }
    destruct e; try exact H; exact Ht.
  - eapply keeps_bind; [exact Hd|]. intros e He. pose proof (memo_keeps p (LPow e) He) as H.
    destruct e; try exact H; apply single_keeps.
Qed.

End SpecMemo.
