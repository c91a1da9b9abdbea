(** * ConcApi: the exported operations that start goroutines, with their goroutines.

    Each takes the gauge [limit] as an argument instead of computing it from the number of
    elements and the configuration (gauge.go:43-49): the theorems hold for every value. *)
From Verif Require Import Base Bits Env EnvFacts Node NodeWf NodeAdd NodeRemove NodeBin NodeBin2 NodeUn Iter Tree TreeFacts
  SetApi SetFacts MapApi MapFacts Concurrency ConcOps.
Local Open Scope Z_scope.

(** A call of an exported operation: it returns or panics at once, or runs goroutines and
    computes its result from theirs. *)
Inductive conc (B : Type) : Type :=
| CRet (b : B)
| CPanic
| CRun (A X F : Type) (g : gprog A X F) (fin : A -> B).
Arguments CRet {B} _.
Arguments CPanic {B}.
Arguments CRun {B A X F} _ _.

Definition cmap {B C} (f : B -> C) (p : conc B) : conc C :=
  match p with
  | CRet b => CRet (f b)
  | CPanic => CPanic
  | CRun g fin => CRun g (fun a => f (fin a))
  end.

Section ConcApi.
Context {E : Env}.

(** However the goroutines are interleaved, the call has the outcome [r].
    If [r] is a result: no run goes on forever, none panics, none blocks before it has returned,
    and what is returned is [r]. If [r] is a panic: no run goes on forever, none returns, and
    none blocks before a goroutine has panicked. *)
Definition Always {B} (p : conc B) (r : res B) : Prop :=
  match p with
  | CRet b => r = Ok b
  | CPanic => r = Panic
  | CRun g fin =>
      Acc (stepBack fanout) (None, g) /\
      forall c' g', runs fanout None g c' g' ->
        match r with
        | Ok b => ~ crashed g' /\
            ((exists a, g' = GRet a /\ fin a = b) \/ exists c'' g'', gstep fanout c' g' c'' g'')
        | Panic => (forall a, g' <> GRet a) /\ (crashed g' \/ exists c'' g'', gstep fanout c' g' c'' g'')
        | Fuel => False
        end
  end.

(** The same machine and build with another FROZEN_CONCURRENCY, GOMAXPROCS and scheduler. *)
Definition withConfig (maxConcurrency maxDepth : Z) (sched : list nat -> list nat -> list nat) : Env := {|
  env_build := env_build;
  env_maxConcurrency := maxConcurrency;
  env_maxDepth := maxDepth;
  env_sched := sched;
  env_uintptr := env_uintptr;
|}.

Context {T : Type} {K : Key T}.

(** tree.go:48-60 [Combine]. *)
Definition t_combineC (limit : Z) (eq : T -> T -> bool) (f : T -> T -> T) (t u : tree T) : conc (tree T) :=
  match t_root t, t_root u with
  | None, _ => CRet u
  | _, None => CRet t
  | Some n, Some n2 =>
      CRun (combineC treeFuel limit eq f n n2 0)
        (fun '(r, m) => mkTree (Some r) (t_count t + t_count u - m))
  end.

(** tree.go:73-82 [Equal]. *)
Definition t_equalC (limit : Z) (eq : T -> T -> bool) (t u : tree T) : conc bool :=
  if negb (t_count t =? t_count u) then CRet false
  else if (t_count t =? 0) && (t_count u =? 0) then CRet true
  else
    match t_root t, t_root u with
    | Some n, Some n2 => CRun (equalC treeFuel limit eq n n2 0) (fun b => b)
    | Some n, None => CRet false
    | None, _ => CPanic
    end.

(** tree.go:92-104 [Intersection]. *)
Definition t_intersectionC (limit : Z) (t u : tree T) : conc (tree T) :=
  match t_root t, t_root u with
  | Some n, Some n2 =>
      let '(n, n2) := if t_count u <? t_count t then (n2, n) else (n, n2) in
      CRun (intersectionC treeFuel limit n n2 0) (fun '(o, m) => mkTree o m)
  | _, _ => CRet emptyTree
  end.

(** tree.go:133-141 [SubsetOf]. *)
Definition t_subsetOfC (limit : Z) (t u : tree T) : conc bool :=
  match t_root t, t_root u with
  | None, _ => CRet true
  | _, None => CRet false
  | Some n, Some n2 => CRun (subsetOfC treeFuel limit n n2 0) (fun b => b)
  end.

(** tree.go:157-162 [Reduce]. *)
Definition t_reduceC (limit : Z) (r : list T -> T) (t : tree T) : conc (option T) :=
  match t_root t with
  | Some n => CRun (reduceC treeFuel limit r n 0) Some
  | None => CRet None
  end.

(** tree.go:177-185 [Where]. *)
Definition t_whereC (limit : Z) (pred : T -> bool) (t : tree T) : conc (tree T) :=
  match t_root t with
  | None => CRet t
  | Some n => CRun (whereC treeFuel limit pred n 0) (fun '(o, m) => mkTree o m)
  end.

(** tree.go:62-71 [Difference]: set.go:262-264 calls it with [NonParallel], the gauge -1. *)
Definition t_differenceC (limit : Z) (t u : tree T) : conc (tree T) :=
  match t_root t, t_root u with
  | Some n, Some n2 =>
      CRun (differenceC treeFuel limit n n2 0) (fun '(o, m) => mkTree o (t_count t - m))
  | _, _ => CRet t
  end.

(** set.go:256-259 [Union]. *)
Definition s_unionC (limit : Z) (s t : set T) : conc (set T) :=
  cmap mkSet (t_combineC limit veq useRHS (s_tree s) (s_tree t)).
(** set.go:251-253 [Intersection]. *)
Definition s_intersectionC (limit : Z) (s t : set T) : conc (set T) :=
  cmap mkSet (t_intersectionC limit (s_tree s) (s_tree t)).
(** set.go:262-264 [Difference]. *)
Definition s_differenceC (limit : Z) (s t : set T) : conc (set T) :=
  cmap mkSet (t_differenceC limit (s_tree s) (s_tree t)).
(** set.go:207-214 [Where]. *)
Definition s_whereC (limit : Z) (s : set T) (pred : T -> bool) : conc (set T) :=
  cmap mkSet (t_whereC limit pred (s_tree s)).
(** set.go:173-176 [Equal]. *)
Definition s_equalC (limit : Z) (s t : set T) : conc bool := t_equalC limit veq (s_tree s) (s_tree t).
(** set.go:185-187 [IsSubsetOf]. *)
Definition s_isSubsetOfC (limit : Z) (s t : set T) : conc bool := t_subsetOfC limit (s_tree s) (s_tree t).
(** set.go:233-235 [Reduce]. *)
Definition s_reduceC (limit : Z) (s : set T) (r : list T -> T) : conc (option T) := t_reduceC limit r (s_tree s).
(** set.go:240-248 [Reduce2]. *)
Definition s_reduce2C (limit : Z) (dflt : T) (s : set T) (op : T -> T -> T) : conc (option T) :=
  s_reduceC limit s (reducer2 dflt op).
(** set.go:268-272 [SymmetricDifference]: both differences are computed without goroutines. *)
Definition s_symmetricDifferenceC (limit : Z) (s t : set T) : conc (set T) :=
  match s_difference s t, s_difference t s with
  | Ok st, Ok ts => s_unionC limit st ts
  | _, _ => CPanic
  end.

End ConcApi.

Section ConcMapApi.
Context {E : Env} {X V : Type} {KX : Key X} {ZV : Zero V}.

(** map.go:194-200 [Merge]. *)
Definition m_mergeC (limit : Z) (m n : gomap X V) (resolve : X -> V -> V -> V) : conc (gomap X V) :=
  let f a b := newMapEntry (e_key a) (resolve (e_key a) (e_val a) (e_val b)) in
  cmap mkMap (t_combineC limit veq f (m_tree m) (m_tree n)).

(** map.go:204-212 [Update]. *)
Definition m_updateC (limit : Z) (m n : gomap X V) : conc (gomap X V) :=
  let '(m, n, f) := if m_count n <? m_count m then (n, m, useLHS) else (m, n, useRHS) in
  cmap mkMap (t_combineC limit veq f (m_tree m) (m_tree n)).

(** map.go:225-232 [Equal]. *)
Definition m_equalC {KV : Key V} (limit : Z) (m n : gomap X V) : conc bool :=
  t_equalC limit mapEntryEqual (m_tree m) (m_tree n).

End ConcMapApi.

Section Facts.
Local Opaque maxTreeDepth fanout fb.
Context {E : Env}.

Lemma always_yields {A X F B} (rely : option F -> option F -> Prop) (g : gprog A X F) (fin : A -> B) a :
  (forall c, rely c c) -> (forall c1 c2 c3, rely c1 c2 -> rely c2 c3 -> rely c1 c3) -> Yields fanout rely a None g -> Always (CRun g fin) (Ok (fin a)).
Proof.
  intros HR HT H. split; [eapply yields_ends; eauto|]. intros c' g' Hr.
  destruct (yields_runs _ rely HR HT _ _ _ _ _ H Hr) as [_ Hy].
  destruct (yields_safe _ rely HR _ _ _ Hy) as [H1 H2]. split; auto.
  destruct (gret_dec g') as [(x & ->)|Hn]; auto. left. exists x. split; auto.
  f_equal. eapply yields_result; eauto.
Qed.

Lemma always_fails {A X F B} (rely : option F -> option F -> Prop) (g : gprog A X F) (fin : A -> B) :
  (forall c, rely c c) -> (forall c1 c2 c3, rely c1 c2 -> rely c2 c3 -> rely c1 c3) -> Fails fanout rely None g -> Always (CRun g fin) Panic.
Proof.
  intros HR HT H. split; [eapply fails_ends; eauto|]. intros c' g' Hr.
  eapply fails_safe; eauto. eapply fails_runs; eauto.
Qed.

Lemma always_map {B C} (f : B -> C) p r : Always p r -> Always (cmap f p) (rmap f r).
Proof.
  destruct p as [b| |A X F g fin]; simpl.
  - intros ->. reflexivity.
  - intros ->. reflexivity.
  - intros [H1 H2]. split; auto. intros c' g' Hr. specialize (H2 c' g' Hr).
    destruct r as [b| |]; simpl; auto. destruct H2 as [H2 H3]. split; auto.
    destruct H3 as [(a & -> & <-)|H3]; auto. left. eauto.
Qed.

Context {T : Type} {K : Key T} {vok : T -> Prop} {KO : KeyOk K vok}.
Notation tree := (tree T).
Notation tok := (tok vok).

Lemma t_combine_always limit g f t u : tok t -> tok u -> gaugeOk g -> t_combine (mkCombineArgs g veq f) t u <> Fuel ->
  Always (t_combineC limit veq f t u) (t_combine (mkCombineArgs g veq f) t u).
Proof.
  intros [Ht _] [Hu _] Hg Hnf. unfold t_combineC, t_combine in *.
  destruct (t_root t) as [n|]; [destruct (t_root u) as [n2|]|]; try reflexivity.
  destruct (combine treeFuel (mkCombineArgs g veq f) n n2 0) as [[r m]| |] eqn:Ec; cbn [bind] in *.
  - destruct (combine_any (vok := vok) treeFuel veq f 0 n n2 g (r, m)) as [_ HY]; auto.
    apply (always_yields (flipRely f) _ (fun '(r, m) => mkTree (Some r) (t_count t + t_count u - m)) (r, m)).
    + apply flipRely_refl.
    + apply flipRely_trans.
    + apply HY. apply flipRely_refl.
  - apply (always_fails (flipRely f)); [apply flipRely_refl|apply flipRely_trans|].
    apply (combine_fails (vok := vok) treeFuel veq f 0 n n2 g); auto; [|apply flipRely_refl].
    intros r. rewrite Ec. discriminate.
  - congruence.
Qed.

Lemma t_combine_any g1 g2 f t u : tok t -> tok u -> gaugeOk g1 -> gaugeOk g2 ->
  t_combine (mkCombineArgs g1 veq f) t u <> Fuel -> t_combine (mkCombineArgs g2 veq f) t u <> Fuel ->
  t_combine (mkCombineArgs g1 veq f) t u = t_combine (mkCombineArgs g2 veq f) t u.
Proof.
  intros [Ht _] [Hu _] Hg1 Hg2 H1 H2. unfold t_combine in *.
  destruct (t_root t) as [n|]; [destruct (t_root u) as [n2|]|]; try reflexivity.
  destruct (combine treeFuel (mkCombineArgs g1 veq f) n n2 0) as [[r m]| |] eqn:E1; cbn [bind] in *.
  - destruct (combine_any (vok := vok) treeFuel veq f 0 n n2 g1 (r, m)) as [HY _]; auto. rewrite HY by auto. reflexivity.
  - destruct (combine treeFuel (mkCombineArgs g2 veq f) n n2 0) as [r2| |] eqn:E2; cbn [bind] in *; auto.
    + destruct (combine_any (vok := vok) treeFuel veq f 0 n n2 g2 r2) as [HY _]; auto. rewrite HY in E1 by auto. discriminate.
    + congruence.
  - congruence.
Qed.

Lemma t_equal_always limit g eq t u : tok t -> tok u -> gaugeOk g ->
  Always (t_equalC limit eq t u) (t_equal g eq t u).
Proof.
  intros [Ht _] [Hu _] Hg. unfold t_equalC, t_equal.
  destruct (negb _); [reflexivity|]. destruct (_ && _); [reflexivity|].
  destruct (t_root t) as [n|]; [destruct (t_root u) as [n2|]|]; try reflexivity.
  destruct (equal_any (vok := vok) treeFuel eq 0 n n2) as (b & H1 & H2); auto using fuelBin_tree.
  rewrite H1 by auto. apply (always_yields noRely _ (fun b => b) b); auto using noRely_refl; try apply noRely_trans.
Qed.

Lemma t_equal_any g1 g2 eq t u : tok t -> tok u -> gaugeOk g1 -> gaugeOk g2 -> t_equal g1 eq t u = t_equal g2 eq t u.
Proof.
  intros [Ht _] [Hu _] Hg1 Hg2. unfold t_equal.
  destruct (negb _); [reflexivity|]. destruct (_ && _); [reflexivity|].
  destruct (t_root t) as [n|]; [destruct (t_root u) as [n2|]|]; try reflexivity.
  destruct (equal_any (vok := vok) treeFuel eq 0 n n2) as (b & H1 & H2); auto using fuelBin_tree.
  rewrite !H1 by auto. reflexivity.
Qed.

Lemma t_subsetOf_always limit g t u : tok t -> tok u -> gaugeOk g ->
  Always (t_subsetOfC limit t u) (t_subsetOf g t u).
Proof.
  intros [Ht _] [Hu _] Hg. unfold t_subsetOfC, t_subsetOf.
  destruct (t_root t) as [n|]; [destruct (t_root u) as [n2|]|]; try reflexivity.
  destruct (subsetOf_any (vok := vok) treeFuel 0 n n2) as (b & H1 & H2); auto using fuelBin_tree.
  rewrite H1 by auto. apply (always_yields noRely _ (fun b => b) b); auto using noRely_refl; try apply noRely_trans.
Qed.

Lemma t_subsetOf_any g1 g2 t u : tok t -> tok u -> gaugeOk g1 -> gaugeOk g2 -> t_subsetOf g1 t u = t_subsetOf g2 t u.
Proof.
  intros [Ht _] [Hu _] Hg1 Hg2. unfold t_subsetOf.
  destruct (t_root t) as [n|]; [destruct (t_root u) as [n2|]|]; try reflexivity.
  destruct (subsetOf_any (vok := vok) treeFuel 0 n n2) as (b & H1 & H2); auto using fuelBin_tree.
  rewrite !H1 by auto. reflexivity.
Qed.

Lemma t_intersection_always limit g t u : tok t -> tok u -> gaugeOk g ->
  Always (t_intersectionC limit t u) (t_intersection g t u).
Proof.
  intros [Ht _] [Hu _] Hg. unfold t_intersectionC, t_intersection.
  destruct (t_root t) as [n|]; [destruct (t_root u) as [n2|]|]; try reflexivity.
  assert (Hgen : forall n n2, wf vok 0 n -> wf vok 0 n2 ->
    Always (CRun (intersectionC treeFuel limit n n2 0) (fun '(o, m) => mkTree o m))
      ('(o, m) <- intersection treeFuel g n n2 0 ;; Ok (mkTree o m))).
  { intros a b Ha Hb. destruct (intersection_wf (vok := vok) treeFuel g 0 a b) as (o & m & E1 & _); auto using fuelBin_tree.
    destruct (intersection_any (vok := vok) treeFuel 0 a b g (o, m)) as [_ HY]; auto. rewrite E1. cbn [bind].
    apply (always_yields noRely _ (fun '(o, m) => mkTree o m) (o, m)); auto using noRely_refl; try apply noRely_trans. }
  destruct (_ <? _); apply Hgen; auto.
Qed.

Lemma t_intersection_any g1 g2 t u : tok t -> tok u -> gaugeOk g1 -> gaugeOk g2 -> t_intersection g1 t u = t_intersection g2 t u.
Proof.
  intros [Ht _] [Hu _] Hg1 Hg2. unfold t_intersection.
  destruct (t_root t) as [n|]; [destruct (t_root u) as [n2|]|]; try reflexivity.
  assert (Hgen : forall n n2, wf vok 0 n -> wf vok 0 n2 -> intersection treeFuel g1 n n2 0 = intersection treeFuel g2 n n2 0).
  { intros a b Ha Hb. destruct (intersection_wf (vok := vok) treeFuel g1 0 a b) as (o & m & E1 & _); auto using fuelBin_tree.
    destruct (intersection_any (vok := vok) treeFuel 0 a b g1 (o, m)) as [HY _]; auto. rewrite E1, HY; auto. }
  destruct (_ <? _); rewrite Hgen; auto.
Qed.

Lemma t_difference_always limit g t u : tok t -> tok u -> gaugeOk g ->
  Always (t_differenceC limit t u) (t_difference g t u).
Proof.
  intros [Ht _] [Hu _] Hg. unfold t_differenceC, t_difference.
  destruct (t_root t) as [n|]; [destruct (t_root u) as [n2|]|]; try reflexivity.
  destruct (difference_wf (vok := vok) treeFuel g 0 n n2) as (o & m & E1 & _); auto using fuelBin_tree.
  destruct (difference_any (vok := vok) treeFuel 0 n n2 g (o, m)) as [_ HY]; auto. rewrite E1. cbn [bind].
  apply (always_yields noRely _ (fun '(o, m) => mkTree o (t_count t - m)) (o, m)); auto using noRely_refl; try apply noRely_trans.
Qed.

Lemma t_difference_any g1 g2 t u : tok t -> tok u -> gaugeOk g1 -> gaugeOk g2 -> t_difference g1 t u = t_difference g2 t u.
Proof.
  intros [Ht _] [Hu _] Hg1 Hg2. unfold t_difference.
  destruct (t_root t) as [n|]; [destruct (t_root u) as [n2|]|]; try reflexivity.
  destruct (difference_wf (vok := vok) treeFuel g1 0 n n2) as (o & m & E1 & _); auto using fuelBin_tree.
  destruct (difference_any (vok := vok) treeFuel 0 n n2 g1 (o, m)) as [HY _]; auto. rewrite E1, HY; auto.
Qed.

Lemma t_where_always limit g pred t : tok t -> gaugeOk g -> Always (t_whereC limit pred t) (t_where g pred t).
Proof.
  intros [Ht _] Hg. unfold t_whereC, t_where. destruct (t_root t) as [n|]; [|reflexivity]. assert (Hn : wf vok 0 n) by auto.
  destruct (where_wf (vok := vok) treeFuel g 0 pred n) as (o & E1 & _); auto using fuelBin_tree.
  destruct (where_any (vok := vok) treeFuel pred 0 n g _ Hn Hg E1) as [_ HY]. rewrite E1. cbn [bind].
  match type of HY with forall _ _, Concurrency.Yields _ _ ?p _ _ =>
    apply (always_yields noRely _ (fun '(o, m) => mkTree o m) p); auto using noRely_refl; try apply noRely_trans end.
Qed.

Lemma t_where_any g1 g2 pred t : tok t -> gaugeOk g1 -> gaugeOk g2 -> t_where g1 pred t = t_where g2 pred t.
Proof.
  intros [Ht _] Hg1 Hg2. unfold t_where. destruct (t_root t) as [n|]; [|reflexivity]. assert (Hn : wf vok 0 n) by auto.
  destruct (where_wf (vok := vok) treeFuel g1 0 pred n) as (o & E1 & _); auto using fuelBin_tree.
  destruct (where_any (vok := vok) treeFuel pred 0 n g1 _ Hn Hg1 E1) as [HY _]. rewrite E1, HY; auto.
Qed.

Lemma t_reduce_always limit g r t : tok t -> gaugeOk g -> Always (t_reduceC limit r t) (t_reduce g r t).
Proof.
  intros [Ht _] Hg. unfold t_reduceC, t_reduce. destruct (t_root t) as [n|]; [|reflexivity]. assert (Hn : wf vok 0 n) by auto.
  rewrite (reduce_wf (vok := vok)); auto using fuelGet_tree. cbn [rmap bind].
  apply (always_yields noRely _ Some (red r n)); auto using noRely_refl; try apply noRely_trans.
  apply (reduce_any (vok := vok)); auto. apply fuelGet_tree.
Qed.

Lemma t_reduce_any g1 g2 r t : tok t -> gaugeOk g1 -> gaugeOk g2 -> t_reduce g1 r t = t_reduce g2 r t.
Proof.
  intros [Ht _] Hg1 Hg2. unfold t_reduce. destruct (t_root t) as [n|]; [|reflexivity]. assert (Hn : wf vok 0 n) by auto.
  rewrite !(reduce_wf (vok := vok)); auto using fuelGet_tree.
Qed.

End Facts.
