(** * SpecFast: the Fast methods of lazy sets are fast (C72). *)
From Verif Require Import Base Bits Env EnvFacts Node NodeWf Iter Tree TreeFacts SetApi SetFacts Reach Spec SpecSet Lazy LazyLists LazyFacts
  LazyOps LazyRun LazyCost.
Local Open Scope nat_scope.

Section Rules.
Context {E : Env} {T : Type} {K : Key T} {B : Boxes T}.

(** The counting program gives this answer. *)
Definition counting {A} (a : A) (x : A * nat) : Prop := a = fst x.
Notation Counts L := (Same L counting).

Lemma same_bind {A C A' C'} (L : @loads T) (R : A -> C -> Prop) (R' : A' -> C' -> Prop) m m' k k' :
  Same L R m m' -> (forall a c, R a c -> Same L R' (k a) (k' c)) -> Same L R' (pbind m k) (pbind m' k').
Proof. intros H Hk. induction H; simpl; auto; constructor; auto. Qed.

Lemma counts_ret {A} (L : @loads T) (a : A) : Counts L (Ret a) (nret a).
Proof. constructor. reflexivity. Qed.

Lemma counts_tick {A} (L : @loads T) (m : prog T A) m' : Counts L m m' -> Counts L m (tick m').
Proof. intros H. unfold tick. induction H; simpl; constructor; auto. Qed.

Lemma counts_bind {A C} (L : @loads T) (m : prog T A) m' (k : A -> prog T C) k' : Counts L m m' ->
  (forall a, Counts L (k a) (k' a)) -> Counts L (pbind m k) (nbind m' k').
Proof.
  intros H Hk. unfold nbind. eapply same_bind; [exact H|]. intros a [c n] Ha. unfold counting in Ha. simpl in *. subst c.
  specialize (Hk a). induction Hk; simpl; constructor; auto.
Qed.

Lemma same_refl {A} (L : @loads T) (m : prog T A) : Same L eq m m.
Proof. induction m; constructor; auto. Qed.

Lemma counts_lift {A} (L : @loads T) (m : prog T A) : Counts L m (nlift m).
Proof. unfold nlift. induction m; simpl; constructor; auto. reflexivity. Qed.

Lemma within_mono {A} (L : @loads T) n n' (Q Q' : A -> Prop) m : Within L n Q m -> n <= n' -> (forall a, Q a -> Q' a) -> Within L n' Q' m.
Proof. intros H Hn HQ. induction H; constructor; auto; lia. Qed.

Lemma within_nret {A} (L : @loads T) n (Q : A -> Prop) a : Q a -> Within L n Q (nret a).
Proof. intros H. constructor; auto. lia. Qed.

Lemma within_tick {A} (L : @loads T) n (Q : A -> Prop) m : Within L n Q m -> Within L (S n) Q (tick m).
Proof. intros H. unfold tick. induction H; simpl; constructor; auto. lia. Qed.

Lemma within_bind {A C} (L : @loads T) n n' (P : A -> Prop) (Q : C -> Prop) m k : Within L n P m -> (forall a, P a -> Within L n' Q (k a)) ->
  Within L (n + n') Q (nbind m k).
Proof.
  intros H Hk. unfold nbind. induction H as [a j Hj Ha| | |]; simpl; try constructor; auto.
  specialize (Hk a Ha). induction Hk; simpl; constructor; auto. lia.
Qed.

Lemma within_lift {A} (L : @loads T) (Q : A -> Prop) (r : res A) : (forall a, r = Ok a -> Q a) -> Within L 0 Q (nlift (lift r)).
Proof. intros H. destruct r; simpl; constructor; auto. Qed.

(** What the two relations say of a run with no other goroutine. *)
Lemma counts_exec {A} (m : prog T A) m' h : Counts (@anyLoad T) m m' -> exec m h = rmap (fun r => (fst (fst r), snd r)) (exec m' h).
Proof.
  intros H. revert h. induction H; intros h; simpl; auto.
  - unfold counting in H. rewrite H. reflexivity.
  - destruct (nth_error h p); [apply H0; exact Logic.I|reflexivity].
Qed.

Lemma within_exec {A} n (Q : A -> Prop) (m : @nprog T A) (h : lheap T) a j h' : Within (aloneIn h) n Q m -> exec m h = Ok (a, j, h') -> h' = h /\ j <= n /\ Q a.
Proof.
  intros H. induction H; simpl; try discriminate.
  - intros [= <- <- <-]. auto.
  - destruct (nth_error h p) as [o|] eqn:Ho; [|discriminate]. apply H0. exact Ho.
Qed.

Lemma within_any {A} (L : @loads T) n (Q : A -> Prop) m : Within (@anyLoad T) n Q m -> Within L n Q m.
Proof. intros H. induction H; constructor; auto. intros o _. apply H0. exact Logic.I. Qed.

Lemma exec_bind {A C} (m : prog T A) (k : A -> prog T C) : forall h a h', exec m h = Ok (a, h') -> exec (pbind m k) h = exec (k a) h'.
Proof.
  induction m; intros h a' h' He; simpl in *; try discriminate; auto.
  - injection He as -> ->. reflexivity.
  - destruct (nth_error h p); [|discriminate]. apply H. exact He.
Qed.

Lemma exec_bind_inv {A C} (m : prog T A) (k : A -> prog T C) : forall h r, exec (pbind m k) h = Ok r ->
  exists a h', exec m h = Ok (a, h') /\ exec (k a) h' = Ok r.
Proof.
  induction m; intros h r He; simpl in *; try discriminate; eauto.
  destruct (nth_error h p); [|discriminate]. apply H. exact He.
Qed.

Lemma objects_pos (e : lset T) : 1 <= objects e.
Proof. destruct e; simpl; lia. Qed.

(** ** The same answers as in Lazy.v *)

Lemma c72_fastIsEmpty_same (e : lset T) : Same (@anyLoad T) counting (l_fastIsEmpty e) (l_fastIsEmptyN e).
Proof.
  induction e; cbn [l_fastIsEmpty l_fastIsEmptyN]; apply counts_tick; try apply counts_ret; auto.
  - constructor. intros [f|] _; auto. apply counts_tick, counts_ret.
  - apply counts_bind; auto. intros. apply counts_ret.
Qed.

Lemma c72_fastCount_same (e : lset T) : Same (@anyLoad T) counting (l_fastCount e) (l_fastCountN e).
Proof.
  induction e; cbn [l_fastCount l_fastCountN]; apply counts_tick; try apply counts_ret; auto.
  - constructor. intros [f|] _; auto. apply counts_tick, counts_ret.
  - apply counts_bind; auto. intros [c|]; [|apply counts_ret]. apply counts_bind; [apply counts_lift|]. intros. apply counts_ret.
Qed.

Lemma c72_fastHas_same (e : lset T) el : Same (@anyLoad T) counting (l_fastHas e el) (l_fastHasN e el).
Proof.
  assert (Hf : forall s, Counts (@anyLoad T) (b <~ lift (s_has s el) ;; Ret (Some b))
    (nbind (nlift (lift (s_has s el))) (fun b => nret (Some b)))).
  { intros. apply counts_bind; [apply counts_lift|]. intros. apply counts_ret. }
  induction e; cbn [l_fastHas l_fastHasN]; apply counts_tick; try apply counts_ret; auto.
  - constructor. intros [f|] _; auto. apply counts_tick; auto.
  - apply counts_bind; auto. intros [b|]; auto. apply counts_ret.
  - apply counts_bind; auto. intros [[]|]; try apply counts_ret; apply counts_bind; auto; intros [[]|]; apply counts_ret.
  - apply counts_bind; auto. intros [b|]; auto. apply counts_ret.
Qed.

Lemma countLoop_same k : forall it n limit, Counts (@anyLoad T) (countLoop k it n limit) (countLoopN k it n limit).
Proof.
  induction k as [|k IH]; intros; cbn [countLoop countLoopN]; destruct (n <? limit)%Z; try apply counts_ret; [constructor|].
  apply counts_tick, counts_bind; [apply counts_lift|]. intros [[] it']; auto. apply counts_ret.
Qed.

Lemma base_same r range limit : Counts (@anyLoad T) (base_countUpTo r range limit) (base_countUpToN r range limit).
Proof.
  destruct r; [apply counts_ret|]. cbn [base_countUpTo base_countUpToN]. apply counts_tick, counts_bind; [apply counts_lift|].
  intros. apply countLoop_same.
Qed.

Lemma countUpTo_same (e : lset T) : forall fast limit, Counts (@anyLoad T) (l_countUpTo_ fast e limit) (l_countUpToN_ fast e limit).
Proof.
  assert (Hcall : forall (e : lset T) fast limit r r', Counts (@anyLoad T) r r' ->
    Counts (@anyLoad T) (r <~ r ;; if fast : bool then Ret r else c <~ base_countUpTo r (l_range e) limit ;; Ret (Some c))
      (if fast then tick r'
       else tick (nbind (tick r') (fun r => nbind (base_countUpToN r (l_range e) limit) (fun c => nret (Some c)))))).
  { intros e0 [] limit r r' H; apply counts_tick.
    - assert (Hr : Counts (@anyLoad T) (pbind r Ret) r') by (clear -H; induction H; simpl; constructor; auto). exact Hr.
    - apply counts_bind; [apply counts_tick; exact H|]. intros. apply counts_bind; [apply base_same|]. intros. apply counts_ret. }
  assert (Hnone : forall (e : lset T) fast limit,
    Counts (@anyLoad T) (if fast : bool then Ret None else c <~ base_countUpTo None (l_range e) limit ;; Ret (Some c))
      (if fast then tick (nret None)
       else tick (nbind (tick (nret None)) (fun r => nbind (base_countUpToN r (l_range e) limit) (fun c => nret (Some c)))))).
  { intros. exact (Hcall e0 fast limit (Ret None) (nret None) (counts_ret _ _)). }
  induction e as [|s|p src IH|a IHa b IHb|a _ b _|a _ b _|src _ pr|src _ m|src _]; intros fast limit;
    cbn [l_countUpTo_ l_countUpToN_]; try apply Hnone.
  - apply counts_tick, counts_ret.
  - apply counts_tick, counts_ret.
  - apply counts_tick. constructor. intros [f|] _; [apply counts_tick, counts_ret|apply IH].
  - apply Hcall. apply counts_bind; [apply c72_fastIsEmpty_same|].
    assert (Hrest : Counts (@anyLoad T)
      (ca <~ l_countUpTo_ true a limit ;;
       if match ca with Some c => (c =? limit)%Z | None => false end then Ret ca
       else cb <~ l_countUpTo_ true b limit ;;
            if match cb with Some c => (c =? limit)%Z | None => false end then Ret cb else Ret None)
      (nbind (l_countUpToN_ true a limit) (fun ca =>
        if match ca with Some c => (c =? limit)%Z | None => false end then nret ca
        else nbind (l_countUpToN_ true b limit) (fun cb =>
          if match cb with Some c => (c =? limit)%Z | None => false end then nret cb else nret None)))).
    { apply counts_bind; [apply IHa|]. intros ca. destruct (match ca with Some c => (c =? limit)%Z | None => false end); [apply counts_ret|].
      apply counts_bind; [apply IHb|]. intros cb. destruct (match cb with Some c => (c =? limit)%Z | None => false end); apply counts_ret. }
    intros [[]|]; [apply IHb|..]; (apply counts_bind; [apply c72_fastIsEmpty_same|]; intros [[]|]; [apply IHa|exact Hrest|exact Hrest]).
  - apply Hcall. apply counts_bind; [apply c72_fastCount_same|]. intros [c|]; [|apply counts_ret].
    apply counts_bind; [apply counts_lift|]. intros. apply counts_ret.
Qed.

Lemma c72_fastCountUpTo_same (e : lset T) limit : Same (@anyLoad T) counting (l_fastCountUpTo e limit) (l_fastCountUpToN e limit).
Proof. apply countUpTo_same. Qed.

(** ** How many calls *)

(** The depth to which FastIsEmpty goes. *)
Fixpoint spine (e : lset T) : nat :=
  match e with LMemo _ src | LWhere src _ | LPow src => S (spine src) | _ => 1 end.

Lemma spine_le (e : lset T) : 1 <= spine e <= objects e.
Proof. induction e; simpl; lia. Qed.

Lemma fastIsEmpty_spine (L : @loads T) (e : lset T) : Within L (spine e) (fun _ => True) (l_fastIsEmptyN e).
Proof.
  induction e; cbn [l_fastIsEmptyN spine]; apply within_tick; try (apply within_nret; exact Logic.I); auto.
  - constructor. intros [f|] _; auto. pose proof (spine_le e).
    eapply within_mono; [apply within_tick, (within_nret _ 0 (fun _ => True)); exact Logic.I|lia|auto].
  - replace (spine e) with (spine e + 0) by lia. eapply within_bind; [exact IHe|]. intros. apply within_nret. exact Logic.I.
Qed.

Lemma c72_fastIsEmpty (L : @loads T) (e : lset T) : Within L (objects e) (fun _ => True) (l_fastIsEmptyN e).
Proof. eapply within_mono; [apply fastIsEmpty_spine|apply spine_le|auto]. Qed.

Lemma c72_fastCount (L : @loads T) (e : lset T) : Within L (objects e) (fun _ => True) (l_fastCountN e).
Proof.
  induction e; cbn [l_fastCountN objects]; apply within_tick; try (apply within_nret; exact Logic.I); auto.
  - constructor. intros [f|] _; auto. pose proof (objects_pos e).
    eapply within_mono; [apply within_tick, (within_nret _ 0 (fun _ => True)); exact Logic.I|lia|auto].
  - replace (objects e) with (objects e + 0) by lia. eapply within_bind; [exact IHe|].
    intros [c|] _; [|apply within_nret; exact Logic.I]. unfold pow2. destruct (c <? 64)%Z; simpl; constructor; auto.
Qed.

Lemma fastCountUpTo_spine (L : @loads T) (e : lset T) limit : NoneEmpty L e ->
  Within L (2 * objects e - spine e) (fun _ => True) (l_countUpToN_ true e limit).
Proof.
  induction e as [|s|p src IH|a IHa b IHb|a _ b _|a _ b _|src _ pr|src _ m|src _]; intros Hn; cbn [l_countUpToN_ objects spine].
  - apply (within_tick _ 0), within_nret. exact Logic.I.
  - apply (within_tick _ 0), within_nret. exact Logic.I.
  - pose proof (spine_le src). replace (2 * S (objects src) - S (spine src)) with (S (2 * objects src - spine src)) by lia.
    apply within_tick. constructor. intros [f|] Ho; [|apply IH; apply Hn; exact Ho].
    eapply within_mono; [apply within_tick, (within_nret _ 0 (fun _ => True)); exact Logic.I|lia|auto].
  - destruct Hn as (Ea & Eb & Na & Nb). specialize (IHa Na). specialize (IHb Nb).
    pose proof (spine_le a). pose proof (spine_le b).
    assert (Fa : Within L (spine a) (fun r => r <> Some true) (l_fastIsEmptyN a)).
    { clear -Ea. pose proof (fastIsEmpty_spine L a) as F. induction Ea; inversion F; subst; constructor; auto. }
    assert (Fb : Within L (spine b) (fun r => r <> Some true) (l_fastIsEmptyN b)).
    { clear -Eb. pose proof (fastIsEmpty_spine L b) as F. induction Eb; inversion F; subst; constructor; auto. }
    eapply within_mono with (Q := fun _ => True); [apply within_tick; eapply within_bind with
      (n' := spine b + ((2 * objects a - spine a) + ((2 * objects b - spine b) + 0))); [exact Fa|]| |auto].
    + intros ea Hea.
      assert (Hin : Within L (spine b + ((2 * objects a - spine a) + ((2 * objects b - spine b) + 0))) (fun _ => True)
        (nbind (l_fastIsEmptyN b) (fun eb =>
          match eb with
          | Some true => l_countUpToN_ false a limit
          | _ => nbind (l_countUpToN_ true a limit) (fun ca =>
                   if match ca with Some c => (c =? limit)%Z | None => false end then nret ca
                   else nbind (l_countUpToN_ true b limit) (fun cb =>
                     if match cb with Some c => (c =? limit)%Z | None => false end then nret cb else nret None))
          end))).
      { eapply within_bind; [exact Fb|]. intros eb Heb.
        assert (Hrest : Within L ((2 * objects a - spine a) + ((2 * objects b - spine b) + 0)) (fun _ => True)
          (nbind (l_countUpToN_ true a limit) (fun ca =>
             if match ca with Some c => (c =? limit)%Z | None => false end then nret ca
             else nbind (l_countUpToN_ true b limit) (fun cb =>
               if match cb with Some c => (c =? limit)%Z | None => false end then nret cb else nret None)))).
        { eapply within_bind; [exact IHa|]. intros ca _.
          destruct (match ca with Some c => (c =? limit)%Z | None => false end); [apply within_nret; exact Logic.I|].
          eapply within_bind; [exact IHb|]. intros cb _.
          destruct (match cb with Some c => (c =? limit)%Z | None => false end); apply within_nret; exact Logic.I. }
        destruct eb as [[]|]; [congruence|exact Hrest|exact Hrest]. }
      destruct ea as [[]|]; [congruence|exact Hin|exact Hin].
    + lia.
  - eapply within_mono; [apply within_tick, (within_nret _ 0 (fun _ => True)); exact Logic.I|lia|auto].
  - eapply within_mono; [apply within_tick, (within_nret _ 0 (fun _ => True)); exact Logic.I|lia|auto].
  - pose proof (spine_le src). eapply within_mono; [apply within_tick, (within_nret _ 0 (fun _ => True)); exact Logic.I|lia|auto].
  - pose proof (objects_pos src). eapply within_mono; [apply within_tick, (within_nret _ 0 (fun _ => True)); exact Logic.I|lia|auto].
  - pose proof (spine_le src). eapply within_mono with (Q := fun _ => True);
    [apply within_tick; eapply within_bind with (n' := 0); [apply c72_fastCount|]| |auto].
    + intros [c|] _; [|apply within_nret; exact Logic.I]. unfold pow2. destruct (c <? 64)%Z; simpl; constructor; auto.
    + lia.
Qed.

Lemma c72_fastCountUpTo (L : @loads T) (e : lset T) limit : NoneEmpty L e ->
  Within L (2 * objects e) (fun _ => True) (l_fastCountUpToN e limit).
Proof. intros H. eapply within_mono; [apply fastCountUpTo_spine; exact H|lia|auto]. Qed.

(** It does not answer for a set that would have to be iterated over. *)
Lemma c72_fastCountUpTo_iterated (L : @loads T) (e : lset T) limit :
  match e with LInter _ _ | LDiff _ _ | LWhere _ _ | LMap _ _ => True | _ => False end ->
  Within L 1 (fun r => r = None) (l_fastCountUpToN e limit).
Proof. destruct e; try contradiction; intros _; apply (within_tick _ 0), within_nret; reflexivity. Qed.

Lemma c72_fastHas (L : @loads T) (e : lset T) el : Within L (hasCalls e) (fun _ => True) (l_fastHasN e el).
Proof.
  assert (Hf : forall s, Within L 0 (fun _ => True) (nbind (nlift (lift (s_has s el))) (fun b => nret (Some b)))).
  { intros. apply (within_bind _ 0 0 (fun _ => True)); [apply within_lift; auto|]. intros. apply within_nret. exact Logic.I. }
  induction e as [|s|p src IH|a IHa b _|a IHa b IHb|a IHa b _|src _ pr|src _ m|src _];
    cbn [l_fastHasN hasCalls]; apply within_tick; try (apply within_nret; exact Logic.I); auto.
  - constructor. intros [f|] _; auto. eapply within_mono; [apply within_tick, Hf| |auto]. destruct src; simpl; lia.
  - replace (2 * hasCalls a) with (hasCalls a + hasCalls a) by lia. eapply within_bind; [exact IHa|].
    intros [r|] _; [apply within_nret; exact Logic.I|exact IHa].
  - eapply within_bind; [exact IHa|].
    intros [[]|] _; try (apply within_nret; exact Logic.I); (replace (hasCalls b) with (hasCalls b + 0) by lia;
      eapply within_bind; [exact IHb|]; intros [[]|] _; apply within_nret; exact Logic.I).
  - replace (2 * hasCalls a) with (hasCalls a + hasCalls a) by lia. eapply within_bind; [exact IHa|].
    intros [r|] _; [apply within_nret; exact Logic.I|exact IHa].
Qed.

Lemma c72_fastHas_known (L : @loads T) (e : lset T) el : Known e -> Within L (objects e) (fun r => r <> None) (l_fastHasN e el).
Proof.
  assert (Hf : forall s, Within L 0 (fun r => r <> None) (nbind (nlift (lift (s_has s el))) (fun b => nret (Some b)))).
  { intros. apply (within_bind _ 0 0 (fun _ => True)); [apply within_lift; auto|]. intros. apply within_nret. discriminate. }
  induction e as [|s|p src IH|a IHa b _|a IHa b IHb|a IHa b _|src _ pr|src _ m|src _];
    intros Hk; cbn [l_fastHasN objects]; try contradiction; apply within_tick; try (apply within_nret; discriminate); auto.
  - constructor. intros [f|] _; [|apply IH; exact Hk]. pose proof (objects_pos src). eapply within_mono; [apply within_tick, Hf|lia|auto].
  - eapply within_bind; [apply IHa; exact Hk|]. intros [r|] Hr; [apply within_nret; discriminate|congruence].
  - destruct Hk as [Ka Kb]. eapply within_bind; [apply IHa; exact Ka|].
    intros [[]|] Hr; try congruence; [|apply within_nret; discriminate]. replace (objects b) with (objects b + 0) by lia.
    eapply within_bind; [apply IHb; exact Kb|]. intros [[]|] Hr'; try congruence; apply within_nret; discriminate.
  - eapply within_bind; [apply IHa; exact Hk|]. intros [r|] Hr; [apply within_nret; discriminate|congruence].
Qed.

Lemma c72_fastHas_flat (L : @loads T) (e : lset T) el : hasCalls e <= objects e -> Within L (objects e) (fun _ => True) (l_fastHasN e el).
Proof. intros H. eapply within_mono; [apply c72_fastHas|exact H|auto]. Qed.

(** ** No predicate or mapper is called *)

Lemma tick_same {A} (L : @loads T) (m m' : @nprog T A) : Same L eq m m' -> Same L eq (tick m) (tick m').
Proof. intros H. apply (same_bind L eq); auto. intros a c ->. apply same_refl. Qed.

Lemma nbind_same {A C} (L : @loads T) (m m' : @nprog T A) (k k' : A -> @nprog T C) : Same L eq m m' -> (forall a, Same L eq (k a) (k' a)) ->
  Same L eq (nbind m k) (nbind m' k').
Proof.
  intros H Hk. apply (same_bind L eq); auto. intros a c ->. apply (same_bind L eq); auto. intros x y ->. apply same_refl.
Qed.

Lemma c72_fastIsEmpty_functions (L : @loads T) (e e' : lset T) : Alike e e' -> Same L eq (l_fastIsEmptyN e) (l_fastIsEmptyN e').
Proof.
  intros H. induction H; cbn [l_fastIsEmptyN]; apply tick_same; try apply same_refl; auto.
  - constructor. intros [f|] _; auto. apply same_refl.
  - apply nbind_same; auto. intros. apply same_refl.
Qed.

Lemma c72_fastCount_functions (L : @loads T) (e e' : lset T) : Alike e e' -> Same L eq (l_fastCountN e) (l_fastCountN e').
Proof.
  intros H. induction H; cbn [l_fastCountN]; apply tick_same; try apply same_refl; auto.
  - constructor. intros [f|] _; auto. apply same_refl.
  - apply nbind_same; auto. intros. apply same_refl.
Qed.

Lemma c72_fastHas_functions (L : @loads T) (e e' : lset T) el : Alike e e' -> Same L eq (l_fastHasN e el) (l_fastHasN e' el).
Proof.
  intros H. induction H; cbn [l_fastHasN]; apply tick_same; try apply same_refl; auto.
  - constructor. intros [f|] _; auto. apply same_refl.
  - apply nbind_same; auto. intros [x|]; auto. apply same_refl.
  - apply nbind_same; auto. intros [[]|]; try apply same_refl; (apply nbind_same; auto; intros; apply same_refl).
  - apply nbind_same; auto. intros [x|]; auto. apply same_refl.
Qed.

Lemma nbind_same_if {A C} (L : @loads T) n (Q : A -> Prop) (m m' : @nprog T A) (k k' : A -> @nprog T C) : Same L eq m m' -> Within L n Q m ->
  (forall a, Q a -> Same L eq (k a) (k' a)) -> Same L eq (nbind m k) (nbind m' k').
Proof.
  intros H Hw Hk. unfold nbind. induction H as [a c ->| | | | |]; inversion Hw; subst; simpl; try constructor; auto.
  apply (same_bind L eq); auto. intros x y ->. apply same_refl.
Qed.

Lemma c72_fastCountUpTo_functions (L : @loads T) (e e' : lset T) limit : Alike e e' -> NoneEmpty L e ->
  Same L eq (l_fastCountUpToN e limit) (l_fastCountUpToN e' limit).
Proof.
  unfold l_fastCountUpToN. intros H. induction H; intros Hn; cbn [l_countUpToN_]; apply tick_same; try apply same_refl; auto.
  - constructor. intros [f|] Ho; [apply same_refl|]. apply IHAlike. apply Hn. exact Ho.
  - destruct Hn as (Ea & Eb & Na & Nb). specialize (IHAlike1 Na). specialize (IHAlike2 Nb).
    eapply nbind_same_if; [apply c72_fastIsEmpty_functions; auto|exact Ea|]. intros ea Hea.
    assert (Hin : Same L eq
        (nbind (l_fastIsEmptyN b) (fun eb =>
          match eb with
          | Some true => l_countUpToN_ false a limit
          | _ => nbind (l_countUpToN_ true a limit) (fun ca =>
                   if match ca with Some c => (c =? limit)%Z | None => false end then nret ca
                   else nbind (l_countUpToN_ true b limit) (fun cb =>
                     if match cb with Some c => (c =? limit)%Z | None => false end then nret cb else nret None))
          end))
        (nbind (l_fastIsEmptyN b') (fun eb =>
          match eb with
          | Some true => l_countUpToN_ false a' limit
          | _ => nbind (l_countUpToN_ true a' limit) (fun ca =>
                   if match ca with Some c => (c =? limit)%Z | None => false end then nret ca
                   else nbind (l_countUpToN_ true b' limit) (fun cb =>
                     if match cb with Some c => (c =? limit)%Z | None => false end then nret cb else nret None))
          end))).
    { eapply nbind_same_if; [apply c72_fastIsEmpty_functions; auto|exact Eb|]. intros eb Heb.
      assert (Hrest : Same L eq
          (nbind (l_countUpToN_ true a limit) (fun ca =>
             if match ca with Some c => (c =? limit)%Z | None => false end then nret ca
             else nbind (l_countUpToN_ true b limit) (fun cb =>
               if match cb with Some c => (c =? limit)%Z | None => false end then nret cb else nret None)))
          (nbind (l_countUpToN_ true a' limit) (fun ca =>
             if match ca with Some c => (c =? limit)%Z | None => false end then nret ca
             else nbind (l_countUpToN_ true b' limit) (fun cb =>
               if match cb with Some c => (c =? limit)%Z | None => false end then nret cb else nret None)))).
      { apply nbind_same; auto. intros ca. destruct (match ca with Some c => (c =? limit)%Z | None => false end); [apply same_refl|].
        apply nbind_same; auto. intros cb. apply same_refl. }
      destruct eb as [[]|]; [congruence|exact Hrest|exact Hrest]. }
    destruct ea as [[]|]; [congruence|exact Hin|exact Hin].
  - apply nbind_same; [apply c72_fastCount_functions; auto|]. intros. apply same_refl.
Qed.

(** ** Memory is only read *)

Lemma readonly {A} n (Q : A -> Prop) (m : prog T A) m' h a h' : Counts (@anyLoad T) m m' -> Within (aloneIn h) n Q m' ->
  exec m h = Ok (a, h') -> h' = h /\ Q a /\ exists j, exec m' h = Ok (a, j, h') /\ j <= n.
Proof.
  intros Hc Hw He. rewrite (counts_exec m m') in He by exact Hc.
  destruct (exec m' h) as [[[a' j] h1]| |] eqn:Em; cbn [rmap bind] in He; try discriminate. cbn in He. injection He as -> ->.
  destruct (within_exec _ _ _ _ _ _ _ Hw Em) as (H1 & H2 & H3). subst h'. eauto.
Qed.

Lemma c72_fastIsEmpty_run (e : lset T) h a h' : exec (l_fastIsEmpty e) h = Ok (a, h') ->
  h' = h /\ exists j, exec (l_fastIsEmptyN e) h = Ok (a, j, h) /\ j <= objects e.
Proof.
  intros H. destruct (readonly _ _ _ _ _ _ _ (c72_fastIsEmpty_same e) (c72_fastIsEmpty (aloneIn h) e) H) as (-> & _ & j & H1 & H2). eauto.
Qed.

Lemma c72_fastCount_run (e : lset T) h a h' : exec (l_fastCount e) h = Ok (a, h') ->
  h' = h /\ exists j, exec (l_fastCountN e) h = Ok (a, j, h) /\ j <= objects e.
Proof.
  intros H. destruct (readonly _ _ _ _ _ _ _ (c72_fastCount_same e) (c72_fastCount (aloneIn h) e) H) as (-> & _ & j & H1 & H2). eauto.
Qed.

Lemma c72_fastCountUpTo_run (e : lset T) limit h a h' : NoneEmpty (aloneIn h) e -> exec (l_fastCountUpTo e limit) h = Ok (a, h') ->
  h' = h /\ exists j, exec (l_fastCountUpToN e limit) h = Ok (a, j, h) /\ j <= 2 * objects e.
Proof.
  intros Hn H. destruct (readonly _ _ _ _ _ _ _ (c72_fastCountUpTo_same e limit) (c72_fastCountUpTo (aloneIn h) e limit Hn) H)
    as (-> & _ & j & H1 & H2). eauto.
Qed.

Lemma c72_fastHas_run (e : lset T) el h a h' : exec (l_fastHas e el) h = Ok (a, h') ->
  h' = h /\ exists j, exec (l_fastHasN e el) h = Ok (a, j, h) /\ j <= hasCalls e.
Proof.
  intros H. destruct (readonly _ _ _ _ _ _ _ (c72_fastHas_same e el) (c72_fastHas (aloneIn h) e el) H) as (-> & _ & j & H1 & H2). eauto.
Qed.

(** ** FastHas takes exponentially many calls *)

(** The expression [whereWiths] makes. *)
Fixpoint unions (n : nat) (s : set T) (p : T -> bool) (t : set T) : lset T :=
  match n with O => LWhere (LFrozen s) p | S k => LUnion (unions k s p t) (LFrozen t) end.

Lemma withs_run n : forall k s p v t h, s_new [v] = Ok t -> length h = S k -> nth_error h k = Some None ->
  exec (withs n (LMemo k (unions k s p t)) v) h = Ok (LMemo (k + n) (unions (k + n) s p t), h ++ repeat None n).
Proof.
  induction n as [|n IH]; intros k s p v t h Hv Hl Hk; cbn [withs].
  - cbn [exec repeat]. rewrite app_nil_r, Nat.add_0_r. reflexivity.
  - unfold l_with. cbn [deref pbind exec]. rewrite Hk. cbn [pbind cur].
    assert (Hs : (match unions k s p t with LEmpty => single v | LFrozen s0 => s' <~ lift (s_with s0 v) ;; Ret (LFrozen s')
      | _ => t' <~ single v ;; union (unions k s p t) t' end) = (t' <~ single v ;; union (unions k s p t) t')) by (destruct k; reflexivity).
    rewrite Hs. unfold single. rewrite Hv. cbn [lift pbind union]. unfold union, l_memo. cbn [pbind exec]. rewrite Hl.
    change (LUnion (unions k s p t) (LFrozen t)) with (unions (S k) s p t). rewrite (IH (S k) s p v t); auto.
    + replace (S k + n) with (k + S n) by lia. rewrite <- app_assoc. reflexivity.
    + rewrite app_length. simpl. lia.
    + rewrite <- Hl. rewrite nth_error_app2, Nat.sub_diag by lia. reflexivity.
Qed.

Lemma unions_has n : forall s p t el h, exists j, exec (l_fastHasN (unions n s p t) el) h = Ok (None, j, h) /\ 2 ^ n <= j.
Proof.
  induction n as [|n IH]; intros s p t el h; [exists 1; split; [reflexivity|simpl; lia]|].
  cbn [unions l_fastHasN]. destruct (IH s p t el h) as (j & Hj & Hle).
  exists (S (j + j)). split; [|simpl; lia]. unfold tick, nbind.
  assert (Hb : exec (x <~ l_fastHasN (unions n s p t) el ;;
    y <~ match fst x with Some b => nret (Some b) | None => l_fastHasN (unions n s p t) el end ;; Ret (fst y, snd x + snd y)) h =
    Ok ((None, j + j), h)).
  { rewrite (exec_bind _ _ _ _ _ Hj). cbn [fst snd]. rewrite (exec_bind _ _ _ _ _ Hj). reflexivity. }
  rewrite (exec_bind _ _ _ _ _ Hb). reflexivity.
Qed.

Lemma unions_objects n s p t : objects (unions n s p t) = 2 + 2 * n.
Proof. induction n; cbn [unions objects]; lia. Qed.

Lemma c72_fastHas_refuted s p v t n el : s_new [v] = Ok t -> exists e h j, exec (whereWiths s p v n) [] = Ok (e, h) /\
  objects e = 3 + 2 * n /\ exec (l_fastHasN e el) h = Ok (None, j, h) /\ 2 ^ n <= j.
Proof.
  intros Hv. destruct (unions_has n s p t el (repeat None (S n))) as (j & Hj & Hle).
  exists (LMemo n (unions n s p t)), (repeat None (S n)), (S j). split; [|split; [|split]].
  - unfold whereWiths, l_where. cbn [deref pbind l_memo exec length app].
    pose proof (withs_run n 0 s p v t [None] Hv eq_refl eq_refl) as H. simpl unions in H at 1. rewrite H. simpl. reflexivity.
  - cbn [objects]. rewrite unions_objects. lia.
  - cbn [l_fastHasN]. unfold tick. cbn [pbind exec].
    assert (Hn : nth_error (@repeat (option (set T)) None (S n)) n = Some None) by (clear; induction n; simpl; auto).
    rewrite Hn.
    rewrite (exec_bind _ _ _ _ _ Hj). reflexivity.
  - lia.
Qed.

(** ** FastCountUpTo may iterate *)

(** At least so many calls as the answer says there are elements. *)
Lemma countLoop_calls k : forall it n limit h c j h', exec (countLoopN k it n limit) h = Ok (c, j, h') -> (c <= n + Z.of_nat j)%Z.
Proof.
  induction k as [|k IH]; intros it n limit h c j h'; cbn [countLoopN]; destruct (n <? limit)%Z;
    try discriminate; try (intros [= <- <- <-]; lia).
  unfold tick, nbind, nlift. intros He. apply exec_bind_inv in He as ([c1 j1] & h1 & He & [= <- <- <-]).
  apply exec_bind_inv in He as ([x jx] & h2 & He & Hr). apply exec_bind_inv in He as (x' & h3 & He & [= -> <- ->]).
  apply exec_bind_inv in Hr as ([c2 j2] & h4 & Hr & [= <- <- <-]). cbn [fst snd] in *. destruct x as [[] it'].
  - apply IH in Hr. lia.
  - injection Hr as <- <- <-. lia.
Qed.

Lemma base_calls range limit h c j h' : exec (base_countUpToN None range limit) h = Ok (c, j, h') -> (c <= Z.of_nat j)%Z.
Proof.
  unfold base_countUpToN, tick, nbind, nlift. intros He. apply exec_bind_inv in He as ([c1 j1] & h1 & He & [= <- <- <-]).
  apply exec_bind_inv in He as ([x jx] & h2 & He & Hr). apply exec_bind_inv in Hr as ([c2 j2] & h4 & Hr & [= <- <- <-]).
  cbn [fst snd] in *. apply countLoop_calls in Hr. lia.
Qed.

End Rules.

Section Slow.
Context {E : Env} {HE : EnvOk E} {T : Type} {K : Key T} {vok : T -> Prop} {KO : KeyOk K vok} {B : Boxes T}.

(** Asked for a union one of whose operands is known to be empty, FastCountUpTo iterates over the other one: it makes at least as many
    calls as it counts elements. *)
Lemma c72_fastCountUpTo_refuted (s : set T) limit : SetReach vok s -> (0 <= limit)%Z -> exists e h j h',
  exec (emptyOrWhere s (fun _ => true)) [] = Ok (e, h) /\ objects e = 6 /\
  exec (l_fastCountUpToN e limit) h = Ok (Some (Z.min limit (s_count s)), j, h') /\ (Z.min limit (s_count s) <= Z.of_nat j)%Z.
Proof.
  intros Hs Hlim. apply sreach_ok in Hs.
  set (w := LMemo 0 (LWhere (LFrozen s) (fun _ => true))). set (e := LMemo 1 (LUnion (LFrozen s_empty) w)).
  set (g := [(LWhere (LFrozen s) (fun _ : T => true), false); (LUnion (LFrozen s_empty) w, false)] : @ghost T).
  assert (Hg : heapOk (vok := vok) [None; None] g).
  { split; [reflexivity|]. intros [|[|q]] src d Hq; [..|destruct q; discriminate]; injection Hq as <- <-.
    - split; [exact Logic.I|]. exists None. split; [reflexivity|]. split; [reflexivity|]. intros f [=].
    - split; [split; exact Logic.I|]. exists None. split; [reflexivity|]. split; [reflexivity|]. intros f [=]. }
  assert (Hl : lok (vok := vok) g w).
  { split; [exists false; reflexivity|]. split; [exact Logic.I|]. split; [exact Hs|]. intros a b _ _ _. reflexivity. }
  assert (Hd : dl w = sel s).
  { cbn. induction (sel s) as [|x l IH]; cbn; congruence. }
  assert (Hw := countUpTo_wp w false limit g (s_count s) Hl). cbv beta in Hw.
  destruct (exec_ok _ _ _ _ _ (Hw ltac:(cbn; tauto) Hlim ltac:(rewrite Hd; apply cardIs_set; exact Hs)) (ext_refl g) Hg)
    as (r & h' & G' & Hx & _ & _ & g' & _ & Hr1 & Hr2).
  destruct r as [c|]; [|destruct (Hr1 eq_refl eq_refl)]. rewrite (Hr2 c eq_refl) in Hx. clear Hr1 Hr2 Hw.
  rewrite (counts_exec _ _ _ (countUpTo_same w false limit)) in Hx.
  destruct (exec (l_countUpToN_ false w limit) [None; None]) as [[[r j] h1]| |] eqn:Hn; cbn in Hx; try discriminate.
  injection Hx as -> ->.
  assert (Hj : (Z.min limit (s_count s) <= Z.of_nat j)%Z).
  { unfold w in Hn. cbn [l_countUpToN_] in Hn. unfold tick at 1 in Hn. cbn [pbind exec nth_error] in Hn.
    apply exec_bind_inv in Hn as ([r1 j1] & h1 & Hn & [= -> <- ->]). unfold tick at 1 in Hn.
    apply exec_bind_inv in Hn as ([r2 j2] & h2 & Hn & [= -> <- ->]). cbn [fst] in *. subst.
    unfold nbind at 1 in Hn. apply exec_bind_inv in Hn as ([r3 j3] & h3 & Hn3 & Hn).
    cbn in Hn3. injection Hn3 as <- <- <-. cbn [fst snd] in Hn.
    apply exec_bind_inv in Hn as ([r4 j4] & h4 & Hn & Hn4). injection Hn4 as E1 E2 E3.
    unfold nbind in Hn. apply exec_bind_inv in Hn as ([r5 j5] & h5 & Hn5 & Hn).
    apply base_calls in Hn5. cbn in Hn. injection Hn as F1 F2 F3. cbn in *. subst. injection E1 as E1. cbn in *. lia. }
  exists e, [None; None], (S (S (S j))), h'. split; [reflexivity|]. split; [reflexivity|]. split.
  - unfold e, l_fastCountUpToN. cbn [l_countUpToN_]. unfold tick at 1. cbn [pbind exec nth_error].
    assert (Hb : exec (nbind (l_fastIsEmptyN (LFrozen s_empty)) (fun ea =>
            match ea with
            | Some true => l_countUpToN_ false w limit
            | _ =>
                nbind (l_fastIsEmptyN w) (fun eb =>
                match eb with
                | Some true => l_countUpToN_ false (LFrozen s_empty) limit
                | _ =>
                    nbind (l_countUpToN_ true (LFrozen s_empty) limit) (fun ca =>
                    if match ca with Some c => (c =? limit)%Z | None => false end then nret ca
                    else
                      nbind (l_countUpToN_ true w limit) (fun cb =>
                      if match cb with Some c => (c =? limit)%Z | None => false end then nret cb
                      else nret None))
                end)
            end)) [None; None] = Ok (Some (Z.min limit (s_count s)), S j, h')).
    { unfold nbind at 1. change (l_fastIsEmptyN (LFrozen s_empty)) with (Ret (Some true, 1) : @nprog T (option bool)).
      cbn [pbind fst snd]. rewrite (exec_bind _ _ _ _ _ Hn). reflexivity. }
    unfold tick. rewrite (exec_bind _ _ _ (Some (Z.min limit (s_count s)), S (S j)) h'); [reflexivity|].
    rewrite (exec_bind _ _ _ _ _ Hb). reflexivity.
  - lia.
Qed.

End Slow.
