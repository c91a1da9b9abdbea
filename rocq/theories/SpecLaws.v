(** * SpecLaws: the laws of set algebra (C65). Expressions of sets are run with the library's operations and compared with their
    meaning as Boolean expressions: an identity between expressions holds for all sets exactly if it is one of Boolean algebra. *)
From Coq Require Import Sorting.Permutation.
From Verif Require Import Base Bits Env EnvFacts Node NodeWf NodeBin NodeBin2 NodeUn Iter Tree TreeFacts SetApi SetFacts MapApi MapFacts Reach Spec SpecSet SpecMap SpecShape.

(** Expressions of the operations Union, Intersection, Difference, SymmetricDifference (set.go:250-272) and Where (set.go:206-214). *)
Inductive sexp :=
| SVar (i : nat)
| SEmpty
| SUnion (a b : sexp)
| SInter (a b : sexp)
| SDiff (a b : sexp)
| SXor (a b : sexp)
| SWhere (j : nat) (a : sexp).

(** What an expression means for one value, which is in the i-th set if [b i], and satisfies the j-th predicate if [q j]. *)
Fixpoint sden (b q : nat -> bool) (e : sexp) : bool :=
  match e with
  | SVar i => b i
  | SEmpty => false
  | SUnion x y => sden b q x || sden b q y
  | SInter x y => sden b q x && sden b q y
  | SDiff x y => sden b q x && negb (sden b q y)
  | SXor x y => xorb (sden b q x) (sden b q y)
  | SWhere j x => sden b q x && q j
  end.

(** All assignments to variables below [n]; the others are false. *)
Fixpoint assignments (n : nat) : list (nat -> bool) :=
  match n with
  | O => [fun _ => false]
  | S k => flat_map (fun b => [b; fun i => if Nat.eqb i k then true else b i]) (assignments k)
  end.
(** All variables are below [n], all predicates below [m]. *)
Fixpoint within (n m : nat) (e : sexp) : bool :=
  match e with
  | SVar i => Nat.ltb i n
  | SEmpty => true
  | SUnion x y | SInter x y | SDiff x y | SXor x y => within n m x && within n m y
  | SWhere j x => Nat.ltb j m && within n m x
  end.
(** The truth table. *)
Definition sameTable (n m : nat) (e1 e2 : sexp) : bool :=
  within n m e1 && within n m e2 &&
  forallb (fun b => forallb (fun q => Bool.eqb (sden b q e1) (sden b q e2)) (assignments m)) (assignments n).

Lemma sden_ext b b' q q' n m e : within n m e = true -> (forall i, (i < n)%nat -> b i = b' i) -> (forall j, (j < m)%nat -> q j = q' j) -> sden b q e = sden b' q' e.
Proof.
  intros Hw Hb Hq. induction e; cbn [within sden] in *; auto; try (apply andb_prop in Hw as [H1 H2]; rewrite ?IHe1, ?IHe2, ?IHe by auto; auto).
  - apply Nat.ltb_lt in Hw. auto.
  - apply Nat.ltb_lt in H1. rewrite Hq; auto.
Qed.
Lemma assignments_all n : forall b, exists b', In b' (assignments n) /\ forall i, (i < n)%nat -> b i = b' i.
Proof.
  induction n as [|n IH]; intros b; [exists (fun _ => false); split; [left; auto|lia]|]. destruct (IH b) as (b' & Hin & Hb). cbn [assignments].
  destruct (b n) eqn:En.
  - exists (fun i => if Nat.eqb i n then true else b' i). split; [apply in_flat_map; exists b'; split; auto; right; left; auto|].
    intros i Hi. destruct (Nat.eqb_spec i n) as [->|]; auto. apply Hb. lia.
  - destruct (b' n) eqn:En'.
    + (* assignments of n variables are false at n *)
      exfalso. revert b' Hin Hb En'. assert (H : forall m b', In b' (assignments m) -> forall i, (m <= i)%nat -> b' i = false).
      { clear. induction m as [|m IH]; intros b' Hin i Hi; cbn [assignments] in Hin; [destruct Hin as [<-|[]]; auto|].
        apply in_flat_map in Hin as (c & Hc & [<-|[<-|[]]]); [apply (IH c); auto; lia|]. destruct (Nat.eqb_spec i m); [lia|]. apply (IH c); auto. lia. }
      intros b' Hin _ En'. rewrite (H n b' Hin n) in En' by lia. discriminate.
    + exists b'. split; [apply in_flat_map; exists b'; split; auto; left; auto|]. intros i Hi. destruct (Nat.eq_dec i n) as [->|]; [congruence|]. apply Hb. lia.
Qed.
Lemma sameTable_spec n m e1 e2 : sameTable n m e1 e2 = true -> forall b q, sden b q e1 = sden b q e2.
Proof.
  unfold sameTable. intros H b q. apply andb_prop in H as [H H3]. apply andb_prop in H as [H1 H2].
  destruct (assignments_all n b) as (b' & Hb & Eb). destruct (assignments_all m q) as (q' & Hq & Eq).
  rewrite (sden_ext b b' q q' n m e1), (sden_ext b b' q q' n m e2) by auto.
  rewrite forallb_forall in H3. specialize (H3 b' Hb). rewrite forallb_forall in H3. apply eqb_prop. auto.
Qed.

(** The predicate does not tell equal values apart. *)
Definition respects {T} {K : Key T} (vok : T -> Prop) (p : T -> bool) : Prop := forall a b, vok a -> vok b -> veq a b = true -> p a = p b.

Section Laws.
Context {E : Env} {HE : EnvOk E} {T : Type} {K : Key T} {vok : T -> Prop} {KO : KeyOk K vok}.
Local Opaque maxTreeDepth fanout fb.

(** Running an expression with the operations of set.go:206-214 and 250-272: [rho] holds the sets, [pi] the predicates. Operands are
    evaluated from left to right, as Go does. *)
Fixpoint srun (rho : nat -> set T) (pi : nat -> T -> bool) (e : sexp) : res (set T) :=
  match e with
  | SVar i => Ok (rho i)
  | SEmpty => Ok s_empty
  | SUnion x y => s <- srun rho pi x ;; t <- srun rho pi y ;; s_union s t
  | SInter x y => s <- srun rho pi x ;; t <- srun rho pi y ;; s_intersection s t
  | SDiff x y => s <- srun rho pi x ;; t <- srun rho pi y ;; s_difference s t
  | SXor x y => s <- srun rho pi x ;; t <- srun rho pi y ;; s_symmetricDifference s t
  | SWhere j x => s <- srun rho pi x ;; s_where s (pi j)
  end.
(** The answer of Has (set.go:189-192). *)
Definition isIn (s : set T) (w : T) : bool := match s_has s w with Ok b => b | _ => false end.

Lemma answers_isIn s (P : T -> Prop) w : Answers vok s P -> vok w -> isIn s w = true <-> P w.
Proof. intros [H _] Hw. destruct (H w Hw) as (x & E1 & Hx). unfold isIn. rewrite E1. exact Hx. Qed.
Lemma isIn_has s w : isIn s w = true <-> Has s w.
Proof. unfold isIn, Has. destruct (s_has s w) as [[]| |]; split; congruence. Qed.

(** Running never ends in anything but a set or a panic; the set is reachable, and its elements are those the expression means. *)
Lemma c65_meaning rho pi e : (forall i, SetReach vok (rho i)) -> (forall j, respects vok (pi j)) ->
  srun rho pi e = Panic \/
  exists r, srun rho pi e = Ok r /\ SetReach vok r /\ forall w, vok w -> isIn r w = sden (fun i => isIn (rho i) w) (fun j => pi j w) e.
Proof.
  intros Hr Hp.
  assert (Hbool : forall x y : bool, (x = true <-> y = true) -> x = y) by (intros [] [] H; auto; destruct H; [symmetry; auto|auto]).
  induction e as [i| |x IHx y IHy|x IHx y IHy|x IHx y IHy|x IHx y IHy|j x IHx]; cbn [srun sden].
  - right. exists (rho i). auto.
  - right. exists s_empty. split; auto. split; [constructor|]. intros w Hw. reflexivity.
  - destruct IHx as [->|(a & -> & Ha & Ia)]; [left; auto|]. cbn [bind]. destruct IHy as [->|(b & -> & Hb & Ib)]; [left; auto|]. cbn [bind].
    destruct (s_union_ok (vok := vok) a b) as [[_ E1]|(_ & r & E1 & _)]; try (apply sreach_ok; auto); [left; auto|]. right. exists r. split; auto. split; [apply (sr_union _ _ _ a b); auto|].
    destruct (c02_union a b r Ha Hb E1) as [HA _]. intros w Hw. rewrite <- Ia, <- Ib by auto. apply Hbool. rewrite (answers_isIn r _ w HA Hw), orb_true_iff, !isIn_has. tauto.
  - destruct IHx as [->|(a & -> & Ha & Ia)]; [left; auto|]. cbn [bind]. destruct IHy as [->|(b & -> & Hb & Ib)]; [left; auto|]. cbn [bind]. right.
    destruct (c02_intersection a b Ha Hb) as (r & E1 & HA & _). exists r. split; auto. split; [apply (sr_intersection _ _ _ a b); auto|].
    intros w Hw. rewrite <- Ia, <- Ib by auto. apply Hbool. rewrite (answers_isIn r _ w HA Hw), andb_true_iff, !isIn_has. tauto.
  - destruct IHx as [->|(a & -> & Ha & Ia)]; [left; auto|]. cbn [bind]. destruct IHy as [->|(b & -> & Hb & Ib)]; [left; auto|]. cbn [bind]. right.
    destruct (c02_difference a b Ha Hb) as (r & E1 & HA & _). exists r. split; auto. split; [apply (sr_difference _ _ _ a b); auto|].
    intros w Hw. rewrite <- Ia, <- Ib by auto. apply Hbool. rewrite (answers_isIn r _ w HA Hw), andb_true_iff, negb_true_iff, <- not_true_iff_false, !isIn_has. tauto.
  - destruct IHx as [->|(a & -> & Ha & Ia)]; [left; auto|]. cbn [bind]. destruct IHy as [->|(b & -> & Hb & Ib)]; [left; auto|]. cbn [bind].
    destruct (s_symmetricDifference_ok (vok := vok) a b) as (? & ? & _ & _ & _ & _ & [[_ E1]|(_ & r & E1 & _)]); try (apply sreach_ok; auto); [left; auto|].
    right. exists r. split; auto. split; [apply (sr_symmetricDifference _ _ _ a b); auto|].
    destruct (c02_symmetricDifference a b r Ha Hb E1) as [HA _]. intros w Hw. rewrite <- Ia, <- Ib by auto. apply Hbool. rewrite (answers_isIn r _ w HA Hw), <- !isIn_has.
    destruct (isIn a w), (isIn b w); cbn; intuition congruence.
  - destruct IHx as [->|(a & -> & Ha & Ia)]; [left; auto|]. cbn [bind]. right.
    destruct (c08_comprehension a (pi j) Ha (Hp j)) as (r & E1 & HA). exists r. split; auto. split; [apply (sr_where _ _ _ a (pi j)); auto|].
    intros w Hw. rewrite <- Ia by auto. apply Hbool. rewrite (answers_isIn r _ w HA Hw), andb_true_iff, !isIn_has. tauto.
Qed.

Lemma equal_isIn r1 r2 : SetReach vok r1 -> SetReach vok r2 -> s_equal r1 r2 = Ok true <-> forall w, vok w -> isIn r1 w = isIn r2 w.
Proof.
  intros H1 H2. destruct (c05_equal r1 r2 H1 H2) as (b & E1 & Hb). rewrite E1. transitivity (SameMembers vok r1 r2); [rewrite <- Hb; split; congruence|].
  unfold SameMembers. split; intros H w Hw; specialize (H w Hw); rewrite <- !isIn_has in *.
  - destruct (isIn r1 w), (isIn r2 w); auto; intuition congruence.
  - rewrite H. tauto.
Qed.

(** Every identity of Boolean algebra is a law. *)
Lemma c65_laws n m e1 e2 rho pi r1 r2 : sameTable n m e1 e2 = true -> (forall i, SetReach vok (rho i)) -> (forall j, respects vok (pi j)) ->
  srun rho pi e1 = Ok r1 -> srun rho pi e2 = Ok r2 -> s_equal r1 r2 = Ok true.
Proof.
  intros Ht Hr Hp E1 E2. destruct (c65_meaning rho pi e1 Hr Hp) as [H|(a & Ea & Ha & Ia)]; [congruence|]. destruct (c65_meaning rho pi e2 Hr Hp) as [H|(b & Eb & Hb & Ib)]; [congruence|].
  assert (a = r1) as -> by congruence. assert (b = r2) as -> by congruence. apply equal_isIn; auto. intros w Hw. rewrite Ia, Ib by auto. apply (sameTable_spec n m); auto.
Qed.

(** And there are no others: where the meanings differ, so do the results for some sets and predicates (of no more than one element, [v]). *)
Lemma c65_only e1 e2 b q v : vok v -> sden b q e1 <> sden b q e2 ->
  exists rho pi r1 r2, (forall i, SetReach vok (rho i)) /\ (forall j, respects vok (pi j)) /\
    srun rho pi e1 = Ok r1 /\ srun rho pi e2 = Ok r2 /\ s_equal r1 r2 = Ok false.
Proof.
  intros Hv Hd. destruct (s_new_ok (vok := vok) [v]) as (one & E1 & Ho & Hl); [intros e [<-|[]]; auto|].
  assert (Hone : SetReach vok one) by (apply (sr_new _ _ _ [v]); auto; intros e [<-|[]]; auto).
  set (rho := fun i => if b i then one else s_empty). set (pi := fun j (_ : T) => q j).
  assert (Hr : forall i, SetReach vok (rho i)) by (intros i; unfold rho; destruct (b i); auto; constructor).
  assert (Hp : forall j, respects vok (pi j)) by (intros j x y _ _ _; reflexivity).
  assert (Hin : isIn one v = true) by (apply isIn_has, has_lookup; auto; rewrite Hl by auto; cbn; rewrite veq_refl by auto; discriminate).
  (* sets of at most one element never clash *)
  assert (Hsmall : forall e r, srun rho pi e = Ok r -> SetReach vok r /\ (forall x, In x (sel r) -> veq v x = true)).
  { intros e r Er. destruct (c65_meaning rho pi e Hr Hp) as [H|(r' & Er' & Hr' & Ir)]; [congruence|]. assert (r' = r) as -> by congruence. split; auto.
    pose proof (sreach_ok r Hr') as Hok. intros x Hx. pose proof (sok_allok r Hok x Hx) as Hxv. destruct (veq v x) eqn:Ev; auto. exfalso.
    assert (Hi : isIn r x = true) by (apply isIn_has, has_lookup; auto; apply lookup_not_None; exists x; split; auto; apply veq_refl; auto).
    assert (Hn : forall i, isIn (rho i) x = false).
    { intros i. apply not_true_iff_false. rewrite isIn_has, has_lookup by (auto; apply sreach_ok; auto). unfold rho. destruct (b i); [|cbn; congruence].
      rewrite Hl by auto. cbn. rewrite Ev. congruence. }
    rewrite (Ir x Hxv) in Hi. assert (Hz : forall e, sden (fun i => isIn (rho i) x) (fun j => pi j x) e = false).
    { induction e0; cbn [sden]; auto; rewrite ?IHe0_1, ?IHe0_2, ?IHe0; auto. }
    rewrite Hz in Hi. discriminate. }
  assert (Hfew : forall r, SetReach vok r -> (forall x, In x (sel r) -> veq v x = true) -> (length (sel r) <= 1)%nat).
  { intros r Hr' Hx. apply sreach_ok in Hr'. pose proof (sok_distinct (vok := vok) r Hr') as Hdis. pose proof (sok_allok r Hr') as Hok.
    destruct (sel r) as [|x [|y l]]; cbn; try lia. inversion Hdis as [|? ? H]; subst. specialize (H y (or_introl eq_refl)).
    assert (veq x y = true); [|congruence]. apply (veq_trans x v y); auto; [apply Hok; left; auto|apply Hok; right; left; auto| |apply Hx; right; left; auto].
    apply veq_sym; auto; [apply Hok; left; auto|]. apply Hx. left. auto. }
  assert (Hu : forall s t, SetReach vok s -> SetReach vok t -> (length (sel s) <= 1)%nat -> s_union s t <> Panic).
  { intros s t Hs Ht Hl1. apply sreach_ok in Hs, Ht. destruct (s_union_ok (vok := vok) s t) as [[Hc _]|(_ & r & Er & _)]; auto; [|congruence].
    apply sclash_Overfull in Hc; auto. destruct Hc as (x & y & _ & _ & _ & H3 & _). unfold number in H3.
    assert (H : forall p (l : list T), (length (filter p l) <= length l)%nat) by (clear; induction l as [|z l IH]; cbn; [lia|]; destruct (p z); cbn; lia).
    pose proof (H (fun e => N.eqb (N.shiftr (vhash e 0) lastBits) (N.shiftr (vhash x 0) lastBits)) (sel s)). lia. }
  assert (Hrun : forall e, exists r, srun rho pi e = Ok r).
  { assert (Hok2 : forall e, srun rho pi e <> Panic -> exists r, srun rho pi e = Ok r).
    { intros e He. destruct (c65_meaning rho pi e Hr Hp) as [H|(r & Er & _)]; [contradiction|eauto]. }
    induction e as [i| |x IHx y IHy|x IHx y IHy|x IHx y IHy|x IHx y IHy|j x IHx]; try (destruct IHx as [a Ea]); try (destruct IHy as [c Ec]).
    - cbn [srun]. eauto.
    - cbn [srun]. eauto.
    - apply Hok2. cbn [srun]. rewrite Ea, Ec. cbn [bind]. destruct (Hsmall x a Ea), (Hsmall y c Ec). apply Hu; auto.
    - destruct (Hsmall x a Ea), (Hsmall y c Ec). destruct (c02_intersection a c) as (r & Er & _); auto. exists r. cbn [srun]. rewrite Ea, Ec. auto.
    - destruct (Hsmall x a Ea), (Hsmall y c Ec). destruct (c02_difference a c) as (r & Er & _); auto. exists r. cbn [srun]. rewrite Ea, Ec. auto.
    - destruct (Hsmall x a Ea), (Hsmall y c Ec). destruct (c02_difference a c) as (st & Es & _), (c02_difference c a) as (ts & Et & _); auto.
      apply Hok2. cbn [srun]. rewrite Ea, Ec. cbn [bind]. unfold s_symmetricDifference. rewrite Es. cbn [bind]. rewrite Et. cbn [bind].
      destruct (Hsmall (SDiff x y) st) as [S1 S2]; [cbn [srun]; rewrite Ea, Ec; auto|]. destruct (Hsmall (SDiff y x) ts) as [T1 T2]; [cbn [srun]; rewrite Ec, Ea; auto|]. apply Hu; auto.
    - destruct (Hsmall x a Ea) as [Ha _]. destruct (c08_comprehension a (pi j) Ha (Hp j)) as (r & Er & _). exists r. cbn [srun]. rewrite Ea. auto. }
  destruct (Hrun e1) as [r1 Er1], (Hrun e2) as [r2 Er2]. exists rho, pi, r1, r2. do 4 (split; auto).
  destruct (c65_meaning rho pi e1 Hr Hp) as [H|(a & Ea & Ha & Ia)]; [congruence|]. destruct (c65_meaning rho pi e2 Hr Hp) as [H|(c & Ec & Hc & Ic)]; [congruence|].
  assert (a = r1) as -> by congruence. assert (c = r2) as -> by congruence.
  destruct (c05_equal r1 r2 Ha Hc) as ([] & Eq & _); auto. exfalso. apply Hd. assert (H := proj1 (equal_isIn r1 r2 Ha Hc) Eq v Hv). rewrite Ia, Ic in H by auto.
  assert (Hb : forall e, sden (fun i => isIn (rho i) v) (fun j => pi j v) e = sden b q e).
  { assert (Hi : forall i, isIn (rho i) v = b i) by (intros i; unfold rho; destruct (b i); auto).
    induction e; cbn [sden]; rewrite ?IHe1, ?IHe2, ?IHe; auto. }
  rewrite !Hb in H. auto.
Qed.

(** The same for inclusions: where one meaning implies the other, IsSubsetOf (set.go:184-187) says so of the results. *)
Lemma c65_inclusions n m e1 e2 rho pi r1 r2 : sameTable n m (SInter e1 e2) e1 = true -> (forall i, SetReach vok (rho i)) -> (forall j, respects vok (pi j)) ->
  srun rho pi e1 = Ok r1 -> srun rho pi e2 = Ok r2 -> s_isSubsetOf r1 r2 = Ok true.
Proof.
  intros Ht Hr Hp E1 E2. destruct (c65_meaning rho pi e1 Hr Hp) as [H|(a & Ea & Ha & Ia)]; [congruence|]. destruct (c65_meaning rho pi e2 Hr Hp) as [H|(b & Eb & Hb & Ib)]; [congruence|].
  assert (a = r1) as -> by congruence. assert (b = r2) as -> by congruence. destruct (c06_isSubsetOf r1 r2 Ha Hb) as (x & -> & Hx). f_equal. apply Hx.
  intros v Hv Hin. rewrite <- isIn_has in *. rewrite Ia in Hin by auto. rewrite Ib by auto.
  assert (H := sameTable_spec n m _ _ Ht (fun i => isIn (rho i) v) (fun j => pi j v)). cbn [sden] in H. rewrite Hin in H. exact H.
Qed.

(** ** Equal operands *)

Lemma number_same (p : T -> bool) l l' : allok vok l -> allok vok l' -> (forall a b, vok a -> vok b -> veq a b = true -> p a = p b) ->
  sameUpToOrder l l' -> number p l = number p l'.
Proof.
  intros Ho Ho' Hp (l'' & P & F). unfold number.
  assert (H : length (filter p l') = length (filter p l'')).
  { clear -P. induction P; cbn; try (destruct (p x)); try (destruct (p y)); cbn; lia. }
  rewrite H. assert (Ho2 : allok vok l'') by (intros e He; apply Ho'; apply (Permutation_in e (Permutation_sym P)); auto). clear -F Ho Ho2 Hp.
  induction F as [|a b l l' Hab F IH]; auto. cbn. rewrite (Hp a b (Ho a (or_introl eq_refl)) (Ho2 b (or_introl eq_refl)) Hab).
  assert (IH' := IH (fun e He => Ho e (or_intror He)) (fun e He => Ho2 e (or_intror He))). destruct (p b); cbn; lia.
Qed.
Lemma overfull_same l1 l1' l2 l2' : allok vok l1 -> allok vok l1' -> allok vok l2 -> allok vok l2' ->
  sameUpToOrder l1 l1' -> sameUpToOrder l2 l2' -> Overfull l1 l2 -> Overfull l1' l2'.
Proof.
  intros O1 O1' O2 O2' S1 S2 (a & b & Ha & Hb & Hab & H1 & H2 & H3).
  destruct (proj1 (perm_eqv l1 l1' O1 O1' S1) a Ha) as (a' & Ha' & Qa). destruct (proj1 (perm_eqv l2 l2' O2 O2' S2) b Hb) as (b' & Hb' & Qb).
  assert (Ea : vhash a' 0 = vhash a 0) by (symmetry; apply (vhash_compat a a' 0%N); auto). assert (Eb : vhash b' 0 = vhash b 0) by (symmetry; apply (vhash_compat b b' 0%N); auto).
  exists a', b'. rewrite Ea, Eb. do 3 (split; auto).
  assert (Hn : forall f l l', allok vok l -> allok vok l' -> sameUpToOrder l l' -> number (fun e => f (vhash e 0)) l = number (fun e => f (vhash e 0)) l').
  { intros f l l' H H' S. apply number_same; auto. intros x y Hx Hy Hxy. rewrite (vhash_compat x y 0%N); auto. }
  rewrite <- (Hn (fun h => N.eqb (N.shiftr h lastBits) (N.shiftr (vhash a 0) lastBits)) l1 l1'), <- (Hn (fun h => N.eqb (N.shiftr h lastBits) (N.shiftr (vhash a 0) lastBits)) l2 l2') by auto.
  rewrite <- (Hn (fun h => N.eqb h (vhash a 0)) l1 l1'), <- (Hn (fun h => N.eqb h (vhash a 0)) l2 l2') by auto. auto.
Qed.
Lemma equal_same s t : SetReach vok s -> SetReach vok t -> s_equal s t = Ok true -> sameUpToOrder (sel s) (sel t).
Proof.
  intros Hs Ht H. apply sreach_ok in Hs, Ht. rewrite sets_eqv in H by auto.
  apply eqv_perm; auto; try apply (sok_distinct (vok := vok)); try apply (sok_allok (vok := vok)); auto.
Qed.
Lemma union_panics s s' t t' : SetReach vok s -> SetReach vok s' -> SetReach vok t -> SetReach vok t' -> s_equal s s' = Ok true -> s_equal t t' = Ok true ->
  s_union s t = Panic -> s_union s' t' = Panic.
Proof.
  intros Hs Hs' Ht Ht' E1 E2 HP. pose proof (equal_same s s' Hs Hs' E1) as S1. pose proof (equal_same t t' Ht Ht' E2) as S2. apply sreach_ok in Hs, Hs', Ht, Ht'.
  destruct (s_union_ok (vok := vok) s t Hs Ht) as [[Hc _]|(_ & r & Er & _)]; [|congruence].
  destruct (s_union_ok (vok := vok) s' t' Hs' Ht') as [[_ H]|(Hn & _)]; auto. exfalso. apply Hn. apply sclash_Overfull in Hc; auto. apply sclash_Overfull; auto.
  apply (overfull_same (sel s) (sel s') (sel t) (sel t')); auto; apply (sok_allok (vok := vok)); auto.
Qed.

Lemma c65_operands e rho rho' pi pi' : (forall i, SetReach vok (rho i)) -> (forall i, SetReach vok (rho' i)) ->
  (forall j, respects vok (pi j)) -> (forall j, respects vok (pi' j)) ->
  (forall i, s_equal (rho i) (rho' i) = Ok true) -> (forall j v, vok v -> pi j v = pi' j v) ->
  (srun rho pi e = Panic /\ srun rho' pi' e = Panic) \/
  exists r r', srun rho pi e = Ok r /\ srun rho' pi' e = Ok r' /\ s_equal r r' = Ok true.
Proof.
  intros Hr Hr' Hp Hp' HE1 Hpi.
  assert (Hden : forall w, vok w -> forall e, sden (fun i => isIn (rho i) w) (fun j => pi j w) e = sden (fun i => isIn (rho' i) w) (fun j => pi' j w) e).
  { intros w Hw. induction e0; cbn [sden]; rewrite ?IHe0_1, ?IHe0_2, ?IHe0, ?Hpi by auto; auto. apply (proj1 (equal_isIn (rho i) (rho' i) (Hr i) (Hr' i))); auto. }
  assert (Hres : forall e r r', srun rho pi e = Ok r -> srun rho' pi' e = Ok r' -> SetReach vok r /\ SetReach vok r' /\ s_equal r r' = Ok true).
  { intros e0 r r' E1 E2. destruct (c65_meaning rho pi e0 Hr Hp) as [H|(a & Ea & Ha & Ia)]; [congruence|]. destruct (c65_meaning rho' pi' e0 Hr' Hp') as [H|(c & Ec & Hc & Ic)]; [congruence|].
    assert (a = r) as -> by congruence. assert (c = r') as -> by congruence. split; auto. split; auto. apply equal_isIn; auto. intros w Hw. rewrite Ia, Ic, Hden by auto. auto. }
  assert (Hiff : srun rho pi e = Panic <-> srun rho' pi' e = Panic).
  { assert (Hsym : forall s t, SetReach vok s -> SetReach vok t -> s_equal s t = Ok true -> s_equal t s = Ok true).
    { intros s t Hs Ht H. rewrite equal_isIn in * by auto. intros w Hw. symmetry. auto. }
    assert (Hcl : forall (s s' t t' : set T), SetReach vok s -> SetReach vok s' -> SetReach vok t -> SetReach vok t' -> s_equal s s' = Ok true -> s_equal t t' = Ok true ->
      s_union s t = Panic <-> s_union s' t' = Panic).
    { intros s s' t t' Hs Hs' Ht Ht' E1 E2. split; [apply (union_panics s s' t t')|apply (union_panics s' s t' t)]; auto. }
    assert (Htot : forall e, (srun rho pi e = Panic \/ exists r, srun rho pi e = Ok r) /\ (srun rho' pi' e = Panic \/ exists r, srun rho' pi' e = Ok r)).
    { intros e0. destruct (c65_meaning rho pi e0 Hr Hp) as [H|(a & Ea & _)], (c65_meaning rho' pi' e0 Hr' Hp') as [H'|(c & Ec & _)]; split; eauto. }
    assert (Hgo : forall x, (srun rho pi x = Panic <-> srun rho' pi' x = Panic) -> (srun rho pi x = Panic /\ srun rho' pi' x = Panic) \/
        exists r r', srun rho pi x = Ok r /\ srun rho' pi' x = Ok r').
    { intros x IH. destruct (Htot x) as [[H|(r & H)] [H'|(r' & H')]]; [left; auto| | |right; eauto]; exfalso; [apply IH in H|apply IH in H']; congruence. }
    induction e as [i| |x IHx y IHy|x IHx y IHy|x IHx y IHy|x IHx y IHy|j x IHx]; cbn [srun]; try (split; discriminate);
      try (apply Hgo in IHx as [[-> ->]|(a & a' & Ea & Ea')]; [split; auto|]); try (apply Hgo in IHy as [[Ey Ey']|(c & c' & Ec & Ec')]; [rewrite Ea, Ea', Ey, Ey'; split; auto|]);
      rewrite Ea, Ea', ?Ec, ?Ec'; cbn [bind]; destruct (Hres x a a' Ea Ea') as (Ra & Ra' & Qa); try (destruct (Hres y c c' Ec Ec') as (Rc & Rc' & Qc)).
    - apply Hcl; auto.
    - destruct (c02_intersection a c Ra Rc) as (r & -> & _), (c02_intersection a' c' Ra' Rc') as (r' & -> & _); auto. split; discriminate.
    - destruct (c02_difference a c Ra Rc) as (r & -> & _), (c02_difference a' c' Ra' Rc') as (r' & -> & _); auto. split; discriminate.
    - destruct (c02_difference a c Ra Rc) as (st & Es & _), (c02_difference c a Rc Ra) as (ts & Et & _), (c02_difference a' c' Ra' Rc') as (st' & Es' & _), (c02_difference c' a' Rc' Ra') as (ts' & Et' & _); auto.
      destruct (Hres (SDiff x y) st st') as (S1 & S2 & S3); [cbn [srun]; rewrite Ea, Ec; auto|cbn [srun]; rewrite Ea', Ec'; auto|].
      destruct (Hres (SDiff y x) ts ts') as (T1 & T2 & T3); [cbn [srun]; rewrite Ec, Ea; auto|cbn [srun]; rewrite Ec', Ea'; auto|].
      unfold s_symmetricDifference. rewrite Es, Es'. cbn [bind]. rewrite Et, Et'. cbn [bind]. apply Hcl; auto.
    - destruct (c08_comprehension a (pi j) Ra (Hp j)) as (r & -> & _), (c08_comprehension a' (pi' j) Ra' (Hp' j)) as (r' & -> & _). split; discriminate. }
  destruct (c65_meaning rho pi e Hr Hp) as [H|(a & Ea & Ha & Ia)]; [left; split; auto; apply Hiff; auto|].
  destruct (c65_meaning rho' pi' e Hr' Hp') as [H|(c & Ec & Hc & Ic)]; [apply Hiff in H; congruence|]. right. exists a, c. split; auto. split; auto. apply (Hres e a c Ea Ec).
Qed.
End Laws.

(** ** Maps *)

Section MapLaws.
Context {E : Env} {HE : EnvOk E} {X V : Type} {KX : Key X} {KV : Key V} {kok : X -> Prop} {valok : V -> Prop} {KO : KeyOk KX kok} {KOV : KeyOk KV valok} {ZV : Zero V}.
Implicit Types (m n r : gomap X V) (k : X).
Local Opaque maxTreeDepth fanout fb.

Lemma equal_same_answers m n F G : MapReach kok valok m -> MapReach kok valok n -> MapAnswers kok m F -> MapAnswers kok n G ->
  (forall k, kok k -> F k = G k) -> m_equal m n = Ok true.
Proof.
  intros Hm Hn HF HG H. destruct (c26_equal m n F G Hm Hn HF HG) as (b & -> & Hb). f_equal. apply Hb. intros k Hk. rewrite <- (H k Hk). destruct (F k) as [v|] eqn:Ev; auto.
  pose proof (mreach_vals m Hm) as Hv. apply (veq_refl (vok := valok)). apply mreach_ok in Hm. rewrite (answers_get m F k) in Ev by auto. apply mget_entry in Ev as (k' & He & _); auto.
  apply (entry_In (kok := kok)) in He; auto. apply (Hv _ He).
Qed.

(** Update is associative. *)
Lemma c65_update m n p a b c d : MapReach kok valok m -> MapReach kok valok n -> MapReach kok valok p ->
  m_update m n = Ok a -> m_update a p = Ok b -> m_update n p = Ok c -> m_update m c = Ok d -> m_equal b d = Ok true.
Proof.
  intros Hm Hn Hp Ea Eb Ec Ed. destruct (c21_answers m Hm) as (F & HF & _), (c21_answers n Hn) as (G & HG & _), (c21_answers p Hp) as (H & HH & _).
  assert (Ra : MapReach kok valok a) by (apply (mr_update _ _ _ _ _ _ m n); auto). assert (Rc : MapReach kok valok c) by (apply (mr_update _ _ _ _ _ _ n p); auto).
  assert (Rb : MapReach kok valok b) by (apply (mr_update _ _ _ _ _ _ a p); auto). assert (Rd : MapReach kok valok d) by (apply (mr_update _ _ _ _ _ _ m c); auto).
  pose proof (c23_update m n F G a Hm Hn Ea HF HG) as Aa. pose proof (c23_update n p G H c Hn Hp Ec HG HH) as Ac.
  apply (equal_same_answers b d _ _ Rb Rd (c23_update a p _ _ b Ra Hp Eb Aa HH) (c23_update m c _ _ d Hm Rc Ed HF Ac)). intros k _. cbn. destruct (H k), (G k); auto.
Qed.

(** The keys of an update are the keys of both maps. *)
Lemma c65_update_keys m n r ks km kn u : MapReach kok valok m -> MapReach kok valok n -> m_update m n = Ok r ->
  m_keys r = Ok ks -> m_keys m = Ok km -> m_keys n = Ok kn -> s_union km kn = Ok u -> s_equal ks u = Ok true.
Proof.
  intros Hm Hn Er Eks Ekm Ekn Eu. assert (Rr : MapReach kok valok r) by (apply (mr_update _ _ _ _ _ _ m n); auto).
  assert (Hk : forall m ks, MapReach kok valok m -> m_keys m = Ok ks -> SetReach kok ks /\ forall k, kok k -> Has ks k <-> exists v, Maps m k v).
  { intros m0 ks0 H0 E0. split; [eapply (sr_keys X V KX ZV kok valok m0); auto|]. destruct (c24_keys m0 H0) as (r0 & E1 & HA & _). assert (r0 = ks0) as -> by congruence.
    intros k Hk. rewrite <- isIn_has. exact (answers_isIn ks0 _ k HA Hk). }
  destruct (Hk r ks Rr Eks) as [R1 A1], (Hk m km Hm Ekm) as [R2 A2], (Hk n kn Hn Ekn) as [R3 A3]. clear Hk.
  assert (Ru : SetReach kok u) by (apply (sr_union _ _ _ km kn); auto). destruct (c02_union km kn u R2 R3 Eu) as [HA _].
  destruct (c05_equal ks u R1 Ru) as (b & -> & Hb). f_equal. apply Hb. intros k Hk. rewrite A1 by auto. rewrite <- (isIn_has u), (answers_isIn u _ k HA Hk), A2, A3 by auto.
  destruct (c21_answers m Hm) as (F & HF & _), (c21_answers n Hn) as (G & HG & _). destruct (c23_update m n F G r Hm Hn Er HF HG) as [Hr _].
  unfold Maps. rewrite (Hr k Hk), (proj1 HF k Hk), (proj1 HG k Hk). destruct (F k) as [x|], (G k) as [y|]; split; intros H; try (left; eexists; reflexivity); try (right; eexists; reflexivity); try (eexists; reflexivity);
    destruct H as [v H] || destruct H as [[v H]|[v H]]; congruence.
Qed.

(** Update is Merge with the second value. *)
Lemma c65_update_merge m n r r' : MapReach kok valok m -> MapReach kok valok n -> m_update m n = Ok r -> m_merge m n (fun _ _ b => b) = Ok r' -> m_equal r r' = Ok true.
Proof.
  intros Hm Hn Er Er'. destruct (c21_answers m Hm) as (F & HF & _), (c21_answers n Hn) as (G & HG & _).
  assert (R1 : MapReach kok valok r) by (apply (mr_update _ _ _ _ _ _ m n); auto). assert (R2 : MapReach kok valok r') by (apply (mr_merge _ _ _ _ _ _ m n (fun _ _ b => b)); auto).
  apply (equal_same_answers r r' _ _ R1 R2 (c23_update m n F G r Hm Hn Er HF HG) (c22_merge_answers m n F G (fun _ _ b => b) r' Hm Hn Er' HF HG (fun _ _ _ _ _ _ _ => eq_refl))). intros k _. cbn. destruct (F k), (G k); auto.
Qed.

(** Merge the other way round, with the arguments of resolve swapped. *)
Lemma c65_merge_flip m n f r r' : MapReach kok valok m -> MapReach kok valok n ->
  (forall k k' a b, kok k -> kok k' -> veq k k' = true -> f k a b = f k' a b) -> (forall k a b, kok k -> valok a -> valok b -> valok (f k a b)) ->
  m_merge m n f = Ok r -> m_merge n m (fun k a b => f k b a) = Ok r' -> m_equal r r' = Ok true.
Proof.
  intros Hm Hn Hf Hv Er Er'. destruct (c21_answers m Hm) as (F & HF & _), (c21_answers n Hn) as (G & HG & _).
  assert (R1 : MapReach kok valok r) by (apply (mr_merge _ _ _ _ _ _ m n f); auto). assert (R2 : MapReach kok valok r') by (apply (mr_merge _ _ _ _ _ _ n m (fun k a b => f k b a)); auto).
  apply (equal_same_answers r r' _ _ R1 R2 (c22_merge_answers m n F G f r Hm Hn Er HF HG Hf)
    (c22_merge_answers n m G F (fun k a b => f k b a) r' Hn Hm Er' HG HF (fun k k' a b Hk Hk' Hq => Hf k k' b a Hk Hk' Hq))).
  intros k _. cbn. destruct (F k), (G k); auto.
Qed.

(** Merge is associative if resolve is. *)
Lemma c65_merge m n p f a b c d : MapReach kok valok m -> MapReach kok valok n -> MapReach kok valok p ->
  (forall k k' a b, kok k -> kok k' -> veq k k' = true -> f k a b = f k' a b) -> (forall k a b, kok k -> valok a -> valok b -> valok (f k a b)) ->
  (forall k x y z, kok k -> f k (f k x y) z = f k x (f k y z)) ->
  m_merge m n f = Ok a -> m_merge a p f = Ok b -> m_merge n p f = Ok c -> m_merge m c f = Ok d -> m_equal b d = Ok true.
Proof.
  intros Hm Hn Hp Hf Hv Hassoc Ea Eb Ec Ed. destruct (c21_answers m Hm) as (F & HF & _), (c21_answers n Hn) as (G & HG & _), (c21_answers p Hp) as (H & HH & _).
  assert (Ra : MapReach kok valok a) by (apply (mr_merge _ _ _ _ _ _ m n f); auto). assert (Rc : MapReach kok valok c) by (apply (mr_merge _ _ _ _ _ _ n p f); auto).
  assert (Rb : MapReach kok valok b) by (apply (mr_merge _ _ _ _ _ _ a p f); auto). assert (Rd : MapReach kok valok d) by (apply (mr_merge _ _ _ _ _ _ m c f); auto).
  pose proof (c22_merge_answers m n F G f a Hm Hn Ea HF HG Hf) as Aa. pose proof (c22_merge_answers n p G H f c Hn Hp Ec HG HH Hf) as Ac.
  apply (equal_same_answers b d _ _ Rb Rd (c22_merge_answers a p _ _ f b Ra Hp Eb Aa HH Hf) (c22_merge_answers m c _ _ f d Hm Rc Ed HF Ac Hf)).
  intros k Hk. cbn. destruct (F k), (G k), (H k); auto. rewrite Hassoc; auto.
Qed.
End MapLaws.
