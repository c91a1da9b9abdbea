(** * SpecBuild: making lazy sets evaluates nothing (C74). *)
From Verif Require Import Base Bits Env Node Iter Tree SetApi Lazy LazyCost.
Local Open Scope nat_scope.

Section SpecBuild.
Context {E : Env} {T : Type} {K : Key T} {B : Boxes T}.

(** Both programs do the same in at most [n] steps, each of which reads a memo pointer or makes a memoSet, and neither stores to a pointer;
    the sets they make differ in predicates and mappers only, and the answers are related by [R]. So, when the programs get different functions, neither calls
    them. *)
Inductive Builds {A C : Type} (R : A -> C -> Prop) : nat -> prog T A -> prog T C -> Prop :=
| builds_ret n a c : R a c -> Builds R n (Ret a) (Ret c)
| builds_panic n : Builds R n PPanic PPanic
| builds_fuel n : Builds R n PFuel PFuel
| builds_load n p k k' : (forall o, Builds R n (k o) (k' o)) -> Builds R (S n) (Load p k) (Load p k')
| builds_alloc n src src' k k' : Alike src src' -> (forall p, Builds R n (k p) (k' p)) -> Builds R (S n) (Alloc src k) (Alloc src' k').

Lemma alike_refl (e : lset T) : Alike e e.
Proof. induction e; constructor; auto. Qed.

Lemma builds_more {A C} (R : A -> C -> Prop) n m a b : Builds R n a b -> n <= m -> Builds R m a b.
Proof.
  intros H. revert m. induction H as [| | |n p k k' _ IH|n src src' k k' Hs _ IH]; intros m Hm; try (constructor; auto; fail).
  - destruct m as [|m]; [lia|]. constructor. intros o. apply IH. lia.
  - destruct m as [|m]; [lia|]. constructor; auto. intros q. apply IH. lia.
Qed.

Lemma builds_bind {A C D F} (R : A -> C -> Prop) (Q : D -> F -> Prop) n m a b k k' : Builds R n a b ->
  (forall x y, R x y -> Builds Q m (k x) (k' y)) -> Builds Q (n + m) (pbind a k) (pbind b k').
Proof.
  intros H Hk. induction H; cbn [pbind Nat.add]; try (constructor; auto; fail).
  apply (builds_more _ m); [auto|lia].
Qed.

Lemma deref_builds (e e' : lset T) : Alike e e' -> Builds Alike 1 (deref e) (deref e').
Proof.
  intros H. destruct H; cbn [deref]; try (constructor; constructor; auto; fail).
  constructor. intros [f|]; constructor; [constructor|assumption].
Qed.

Lemma memo_builds (e e' : lset T) : Alike e e' -> Builds Alike 1 (l_memo e) (l_memo e').
Proof.
  intros H. pose proof H as H0.
  destruct H; cbn [l_memo]; try (constructor; exact H0); (constructor; [exact H0|]; intros p'; constructor; constructor; exact H0).
Qed.

Lemma frozen_builds n (r : res (set T)) : Builds Alike n (s <~ lift r ;; Ret (LFrozen s)) (s <~ lift r ;; Ret (LFrozen s)).
Proof. destruct r; cbn; constructor. constructor. Qed.

Lemma single_bind n (v : T) (k k' : lset T -> prog T (lset T)) : (forall s, Builds Alike n (k (LFrozen s)) (k' (LFrozen s))) -> Builds Alike n (pbind (single v) k) (pbind (single v) k').
Proof. intros H. unfold single. destruct (s_new [v]); cbn; [auto|constructor|constructor]. Qed.

Lemma fast_builds (e e' : lset T) : Alike e e' -> Builds eq (objects e) (l_fastIsEmpty e) (l_fastIsEmpty e').
Proof.
  induction 1; cbn [l_fastIsEmpty objects]; try (constructor; reflexivity).
  - constructor. intros [f|]; [constructor; reflexivity|exact IHAlike].
  - eapply builds_more; [eapply (builds_bind _ _ _ 0); [exact IHAlike|]|lia]. intros x y <-. constructor. reflexivity.
  - eapply builds_more; [exact IHAlike|lia].
Qed.

Lemma fastEmpty_bind n (e e' : lset T) (k k' : bool -> prog T (lset T)) : Alike e e' -> (forall r, Builds Alike n (k r) (k' r)) ->
  Builds Alike (objects e + n) (pbind (fastEmpty e) k) (pbind (fastEmpty e') k').
Proof.
  intros H Hk. eapply (builds_bind eq).
  - eapply builds_more; [eapply (builds_bind _ _ _ 0); [apply fast_builds; exact H|]|lia]. intros x y <-. constructor. reflexivity.
  - intros x y <-. apply Hk.
Qed.

Lemma difference_builds (a b a' b' : lset T) : Alike a a' -> Alike b b' ->
  Builds Alike (S (objects a + objects b)) (difference a b) (difference a' b').
Proof.
  intros Ha Hb. unfold difference. eapply builds_more; [apply (fastEmpty_bind (objects b + 1)); [exact Ha|]|lia].
  intros []; [constructor; exact Ha|]. apply fastEmpty_bind; [exact Hb|]. intros []; [constructor; exact Ha|].
  apply memo_builds. constructor; auto.
Qed.

Lemma intersection_builds (a b a' b' : lset T) : Alike a a' -> Alike b b' ->
  Builds Alike (S (objects a + objects b)) (intersection a b) (intersection a' b').
Proof.
  intros Ha Hb. unfold intersection. eapply builds_more; [apply (fastEmpty_bind (objects b + 1)); [exact Ha|]|lia].
  intros []; [constructor; constructor|]. apply fastEmpty_bind; [exact Hb|]. intros []; [constructor; constructor|].
  apply memo_builds. constructor; auto.
Qed.

(** The receiver's object, which has no more objects than the receiver. *)
Lemma deref_bind n (e e' : lset T) (k k' : lset T -> prog T (lset T)) : Alike e e' ->
  (forall x y, Alike x y -> objects x <= objects e -> Builds Alike n (k x) (k' y)) -> Builds Alike (S n) (pbind (deref e) k) (pbind (deref e') k').
Proof.
  intros H Hk.
  assert (Hr : forall x y, Alike x y -> objects x <= objects e -> Builds Alike (S n) (k x) (k' y)).
  { intros x y Hx Ho. eapply builds_more; [apply Hk; auto|lia]. }
  destruct H; cbn [deref pbind]; try (apply Hr; [constructor; auto|auto]; fail).
  constructor. intros [f|]; cbn [pbind cur]; apply Hk; try (constructor; auto; fail); auto; cbn; lia.
Qed.

Lemma c74_where (e e' : lset T) q q' : Alike e e' -> Builds Alike 2 (l_where e q) (l_where e' q').
Proof.
  intros H. apply deref_bind; [exact H|]. intros x y Hx _. pose proof (memo_builds (LWhere x q) (LWhere y q')) as Hm.
  destruct Hx; try (apply Hm; constructor; constructor; auto; fail). constructor. constructor.
Qed.

Lemma c74_map (e e' : lset T) m m' : Alike e e' -> match e with LFrozen _ => False | LMemo _ _ => False | _ => True end ->
  Builds Alike 2 (l_map e m) (l_map e' m').
Proof.
  intros H He. pose proof (memo_builds (LMap e m) (LMap e' m')) as Hm.
  destruct H; try contradiction; try (eapply builds_more; [apply Hm; constructor; constructor; auto|auto]; fail). constructor. constructor.
Qed.

Lemma c74_with (e e' : lset T) v : Alike e e' -> Builds Alike 2 (l_with e v) (l_with e' v).
Proof.
  intros H. apply deref_bind; [exact H|]. intros x y Hx _.
  assert (Hu : Builds Alike 1 (t <~ single v ;; union x t) (t <~ single v ;; union y t)).
  { apply single_bind. intros s. apply memo_builds. constructor; [exact Hx|constructor]. }
  destruct Hx; try exact Hu; [|apply frozen_builds]. unfold single. destruct (s_new [v]); cbn; constructor. constructor.
Qed.

Lemma c74_without (e e' : lset T) v : Alike e e' -> Builds Alike (3 + objects e) (l_without e v) (l_without e' v).
Proof.
  intros H. apply (deref_bind (2 + objects e)); [exact H|]. intros x y Hx Ho.
  assert (Hu : Builds Alike (2 + objects e) (t <~ single v ;; difference x t) (t <~ single v ;; difference y t)).
  { apply single_bind. intros s. eapply builds_more; [apply difference_builds; [exact Hx|constructor]|cbn; lia]. }
  destruct Hx; try exact Hu; apply frozen_builds.
Qed.

Lemma c74_union (e e' t t' : lset T) : Alike e e' -> Alike t t' -> Builds Alike 2 (l_union e t) (l_union e' t').
Proof.
  intros H Ht. apply deref_bind; [exact H|]. intros x y Hx _. pose proof (memo_builds (LUnion x t) (LUnion y t')) as Hm.
  destruct Hx; try (apply Hm; constructor; [constructor; auto|exact Ht]; fail). constructor. exact Ht.
Qed.

Lemma c74_intersection (e e' t t' : lset T) : Alike e e' -> Alike t t' ->
  Builds Alike (2 + objects e + objects t) (l_intersection e t) (l_intersection e' t').
Proof.
  intros H Ht. apply (deref_bind (1 + objects e + objects t)); [exact H|]. intros x y Hx Ho.
  assert (Hm : Builds Alike (1 + objects e + objects t) (intersection x t) (intersection y t')).
  { eapply builds_more; [apply intersection_builds; eassumption|lia]. }
  destruct Hx; exact Hm || (constructor; constructor).
Qed.

Lemma c74_difference (e e' t t' : lset T) : Alike e e' -> Alike t t' ->
  Builds Alike (2 + objects e + objects t) (l_difference e t) (l_difference e' t').
Proof.
  intros H Ht. apply (deref_bind (1 + objects e + objects t)); [exact H|]. intros x y Hx Ho.
  assert (Hm : Builds Alike (1 + objects e + objects t) (difference x t) (difference y t')).
  { eapply builds_more; [apply difference_builds; eassumption|lia]. }
  destruct Hx; exact Hm || (constructor; constructor).
Qed.

Lemma c74_symmetricDifference (e e' t t' : lset T) : Alike e e' -> Alike t t' ->
  Builds Alike (7 + 2 * (objects e + objects t)) (l_symmetricDifference e t) (l_symmetricDifference e' t').
Proof.
  intros H Ht. apply (deref_bind (6 + 2 * (objects e + objects t))); [exact H|]. intros x y Hx Ho.
  assert (Hm : Builds Alike (6 + 2 * (objects e + objects t)) (st <~ l_difference x t ;; ts <~ l_difference t x ;; l_union st ts)
    (st <~ l_difference y t' ;; ts <~ l_difference t' y ;; l_union st ts)).
  { eapply builds_more; [eapply builds_bind; [apply c74_difference; eassumption|]|].
    - intros st st' Hs. eapply builds_bind; [apply c74_difference; eassumption|]. intros ts ts' Hts. apply c74_union; eassumption.
    - lia. }
  destruct Hx; try exact Hm. constructor. exact Ht.
Qed.

Lemma c74_powerset (e e' : lset T) : Alike e e' -> Builds Alike 2 (l_powerset e) (l_powerset e').
Proof.
  intros H. apply deref_bind; [exact H|]. intros x y Hx _. pose proof (memo_builds (LPow x) (LPow y)) as Hm.
  destruct Hx; try (apply Hm; constructor; constructor; auto; fail).
  unfold single. destruct (s_new [emptyBox]); cbn; constructor. constructor.
Qed.

(** Map of a memoSet, as long as it is not memoised. *)
Lemma c74_map_memo p (src src' : lset T) m m' h : Alike src src' -> match src with LFrozen _ => False | LMemo _ _ => False | _ => True end ->
  nth_error h p = Some None ->
  exec (l_map (LMemo p src) m) h = exec (l_map src m) h /\ Builds Alike 2 (l_map src m) (l_map src' m').
Proof.
  intros H Hs Hp. split; [|apply c74_map; auto]. unfold l_map. cbn [deref pbind exec]. rewrite Hp. cbn [cur].
  destruct src; try contradiction; reflexivity.
Qed.

(** Map of a frozen set calls the mapper for every element at once. *)
Lemma c74_map_refuted (s : set T) m m' n : s_map s m <> s_map s m' -> ~ Builds Alike n (l_map (LFrozen s) m) (l_map (LFrozen s) m').
Proof.
  intros Hne H. apply Hne. unfold l_map in H. cbn [deref pbind] in H.
  destruct (s_map s m) as [a| |], (s_map s m') as [b| |]; cbn [lift pbind] in H; inversion H; subst; auto.
  match goal with Ha : Alike (LFrozen _) _ |- _ => inversion Ha; subst; reflexivity end.
Qed.

End SpecBuild.
