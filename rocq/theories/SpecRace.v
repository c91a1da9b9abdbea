(** * SpecRace: statements about data races between the goroutines of one operation (C71). *)
From Coq Require Import String.
From Verif Require Import Base Bits Env EnvFacts Node NodeWf NodeAdd NodeRemove NodeBin NodeBin2 NodeUn Iter Tree TreeFacts
  SetApi SetFacts MapApi MapFacts Reach Concurrency ConcOps ConcApi ConcRun SpecConc Goroutines GoOps GoRun Config SpecGo Races ExampleData.
Local Open Scope Z_scope.

(** No two goroutines of the call ever race. *)
Definition RaceFree {E : Env} {B} (p : conc B) : Prop :=
  match p with
  | CRun g _ => forall s v, sruns fanout (start g) s -> ~ Race v s
  | _ => True
  end.
(** Goroutines of the call race at most for the mask of a branch of the result, which is computed anew after they have ended
    (branch.go:111), and for the field [flipped], to which they all assign equivalent arguments. *)
Definition MildRaces {E : Env} {B} (p : conc B) : Prop :=
  match p with
  | CRun g _ => forall s v, sruns fanout (start g) s -> Race v s -> isSlot v = false
  | _ => True
  end.
(** Two goroutines of the call can race for [v]. *)
Definition Races {E : Env} {B} (v : place) (p : conc B) : Prop :=
  match p with
  | CRun g _ => exists s, sruns fanout (start g) s /\ Race v s
  | _ => False
  end.

Section Facts.
Context {E : Env}.

Lemma free_map {B C} (f : B -> C) p : RaceFree p -> RaceFree (cmap f p).
Proof. destruct p; simpl; auto. Qed.
Lemma mild_map {B C} (f : B -> C) p : MildRaces p -> MildRaces (cmap f p).
Proof. destruct p; simpl; auto. Qed.

Context {T : Type} {K : Key T} {vok : T -> Prop} {KO : KeyOk K vok}.
Notation tok := (tok vok).

Lemma t_combine_mild limit f t u : tok t -> tok u -> MildRaces (t_combineC limit veq f t u).
Proof.
  intros [Ht _] [Hu _]. unfold t_combineC. destruct (t_root t) as [n|]; [destruct (t_root u) as [n2|]|]; try exact Logic.I.
  intros s v Hr HR. destruct (races fanout Mix _ _ (combine_new (vok := vok) treeFuel limit veq f 0 n n2 (Ht n eq_refl) (Hu n2 eq_refl))
    (combine_own (vok := vok) _ _ _ _ _ _ _ (Ht n eq_refl) (Hu n2 eq_refl)) s v Hr HR). auto.
Qed.

Lemma t_combine_free limit f t u : limit <= 0 -> RaceFree (t_combineC limit veq f t u).
Proof.
  intros Hl. unfold t_combineC. destruct (t_root t) as [n|]; [destruct (t_root u) as [n2|]|]; try exact Logic.I.
  intros s v. apply solo_races. apply combine_solo. lia.
Qed.

Lemma t_equal_free limit eq t u : tok t -> tok u -> RaceFree (t_equalC limit eq t u).
Proof.
  intros [Ht _] [Hu _]. unfold t_equalC. destruct (negb _); [exact Logic.I|]. destruct (_ && _); [exact Logic.I|].
  destruct (t_root t) as [n|]; [destruct (t_root u) as [n2|]|]; try exact Logic.I.
  intros s v Hr HR. destruct (races fanout Ask _ _ (equal_new (vok := vok) treeFuel limit eq 0 n n2 (Ht n eq_refl) (Hu n2 eq_refl) fuelBin_tree)
    (equal_own (vok := vok) _ _ _ _ _ _ (Ht n eq_refl) (Hu n2 eq_refl)) s v Hr HR); discriminate.
Qed.

Lemma t_subsetOf_free limit t u : tok t -> tok u -> RaceFree (t_subsetOfC limit t u).
Proof.
  intros [Ht _] [Hu _]. unfold t_subsetOfC. destruct (t_root t) as [n|]; [destruct (t_root u) as [n2|]|]; try exact Logic.I.
  intros s v Hr HR. destruct (races fanout Ask _ _ (subsetOf_new (vok := vok) treeFuel limit 0 n n2 (Ht n eq_refl) (Hu n2 eq_refl) fuelBin_tree)
    (subsetOf_own (vok := vok) _ _ _ _ _ (Ht n eq_refl) (Hu n2 eq_refl)) s v Hr HR); discriminate.
Qed.

Lemma t_intersection_free limit t u : tok t -> tok u -> RaceFree (t_intersectionC limit t u).
Proof.
  intros [Ht _] [Hu _]. unfold t_intersectionC. destruct (t_root t) as [n|]; [destruct (t_root u) as [n2|]|]; try exact Logic.I.
  destruct (_ <? _); intros s v Hr HR.
  - destruct (races fanout Fill _ _ (intersection_new (vok := vok) treeFuel limit 0 n2 n (Hu n2 eq_refl) (Ht n eq_refl))
      (intersection_own (vok := vok) _ _ _ _ _ (Hu n2 eq_refl) (Ht n eq_refl)) s v Hr HR); discriminate.
  - destruct (races fanout Fill _ _ (intersection_new (vok := vok) treeFuel limit 0 n n2 (Ht n eq_refl) (Hu n2 eq_refl))
      (intersection_own (vok := vok) _ _ _ _ _ (Ht n eq_refl) (Hu n2 eq_refl)) s v Hr HR); discriminate.
Qed.

Lemma t_difference_free limit t u : tok t -> tok u -> RaceFree (t_differenceC limit t u).
Proof.
  intros [Ht _] [Hu _]. unfold t_differenceC. destruct (t_root t) as [n|]; [destruct (t_root u) as [n2|]|]; try exact Logic.I.
  intros s v Hr HR. destruct (races fanout Fill _ _ (difference_new (vok := vok) treeFuel limit 0 n n2 (Ht n eq_refl) (Hu n2 eq_refl))
    (difference_own (vok := vok) _ _ _ _ _ (Ht n eq_refl) (Hu n2 eq_refl)) s v Hr HR); discriminate.
Qed.

Lemma t_where_free limit pred t : tok t -> RaceFree (t_whereC limit pred t).
Proof.
  intros [Ht _]. unfold t_whereC. destruct (t_root t) as [n|]; try exact Logic.I.
  intros s v Hr HR. destruct (races fanout Fill _ _ (where_new (vok := vok) treeFuel limit pred 0 n (Ht n eq_refl))
    (where_own (vok := vok) _ _ _ _ _ (Ht n eq_refl)) s v Hr HR); discriminate.
Qed.

Lemma t_reduce_free limit r t : tok t -> RaceFree (t_reduceC limit r t).
Proof.
  intros [Ht _]. unfold t_reduceC. destruct (t_root t) as [n|]; try exact Logic.I.
  intros s v Hr HR. destruct (races fanout Fill _ _ (reduce_new (vok := vok) treeFuel limit r 0 n (Ht n eq_refl))
    (reduce_own (vok := vok) _ _ _ _ _ (Ht n eq_refl)) s v Hr HR); discriminate.
Qed.

End Facts.

Section SpecRace.
Local Opaque maxTreeDepth fanout fb.
Context {E : Env} {HE : EnvOk E} {T : Type} {K : Key T} {vok : T -> Prop} {KO : KeyOk K vok}.

Lemma c71_union limit s t : SetReach vok s -> SetReach vok t ->
  MildRaces (s_unionC limit s t) /\ (limit <= 0 -> RaceFree (s_unionC limit s t)).
Proof.
  intros Hs Ht. apply sreach_ok in Hs. apply sreach_ok in Ht. split; [apply mild_map; apply (t_combine_mild (vok := vok)); auto|].
  intros Hl. apply free_map. apply t_combine_free. auto.
Qed.

Lemma c71_symmetricDifference limit s t : SetReach vok s -> SetReach vok t ->
  MildRaces (s_symmetricDifferenceC limit s t) /\ (limit <= 0 -> RaceFree (s_symmetricDifferenceC limit s t)).
Proof.
  intros Hs Ht. apply sreach_ok in Hs. apply sreach_ok in Ht.
  destruct (s_difference_ok s t) as (a & Ea & Ha & _); auto. destruct (s_difference_ok t s) as (b & Eb & Hb & _); auto.
  unfold s_symmetricDifferenceC. rewrite Ea, Eb. split; [apply mild_map; apply (t_combine_mild (vok := vok)); auto|].
  intros Hl. apply free_map. apply t_combine_free. auto.
Qed.

Lemma c71_intersection limit s t : SetReach vok s -> SetReach vok t -> RaceFree (s_intersectionC limit s t).
Proof. intros Hs Ht. apply sreach_ok in Hs. apply sreach_ok in Ht. apply free_map. apply (t_intersection_free (vok := vok)); auto. Qed.

Lemma c71_difference limit s t : SetReach vok s -> SetReach vok t -> RaceFree (s_differenceC limit s t).
Proof. intros Hs Ht. apply sreach_ok in Hs. apply sreach_ok in Ht. apply free_map. apply (t_difference_free (vok := vok)); auto. Qed.

Lemma c71_where limit s pred : SetReach vok s -> RaceFree (s_whereC limit s pred).
Proof. intros Hs. apply sreach_ok in Hs. apply free_map. apply (t_where_free (vok := vok)); auto. Qed.

Lemma c71_equal limit s t : SetReach vok s -> SetReach vok t -> RaceFree (s_equalC limit s t).
Proof. intros Hs Ht. apply sreach_ok in Hs. apply sreach_ok in Ht. apply (t_equal_free (vok := vok)); auto. Qed.

Lemma c71_isSubsetOf limit s t : SetReach vok s -> SetReach vok t -> RaceFree (s_isSubsetOfC limit s t).
Proof. intros Hs Ht. apply sreach_ok in Hs. apply sreach_ok in Ht. apply (t_subsetOf_free (vok := vok)); auto. Qed.

Lemma c71_reduce limit s f : SetReach vok s -> RaceFree (s_reduceC limit s f).
Proof. intros Hs. apply sreach_ok in Hs. apply (t_reduce_free (vok := vok)); auto. Qed.

End SpecRace.

Section SpecRaceMap.
Local Opaque maxTreeDepth fanout fb.
Context {E : Env} {HE : EnvOk E} {X V : Type} {KX : Key X} {kok : X -> Prop} {KO : KeyOk KX kok} {valok : V -> Prop} {ZV : Zero V}.

Lemma c71_merge limit m n resolve : MapReach kok valok m -> MapReach kok valok n ->
  MildRaces (m_mergeC limit m n resolve) /\ (limit <= 0 -> RaceFree (m_mergeC limit m n resolve)).
Proof.
  intros Hm Hn. apply mreach_ok in Hm. apply mreach_ok in Hn. split; [apply mild_map; apply (t_combine_mild (vok := eok (kok := kok))); auto|].
  intros Hl. apply free_map. apply t_combine_free. auto.
Qed.

Lemma c71_update limit m n : MapReach kok valok m -> MapReach kok valok n ->
  MildRaces (m_updateC limit m n) /\ (limit <= 0 -> RaceFree (m_updateC limit m n)).
Proof.
  intros Hm Hn. apply mreach_ok in Hm. apply mreach_ok in Hn. unfold m_updateC.
  split; [|intros Hl]; (destruct (m_count n <? m_count m); [|]); try (apply mild_map; apply (t_combine_mild (vok := eok (kok := kok))); auto);
    apply free_map; apply t_combine_free; auto.
Qed.

Lemma c71_mapEqual {KV : Key V} limit m n : MapReach kok valok m -> MapReach kok valok n -> RaceFree (m_equalC limit m n).
Proof. intros Hm Hn. apply mreach_ok in Hm. apply mreach_ok in Hn. apply (t_equal_free (vok := eok (kok := kok))); auto. Qed.

End SpecRaceMap.

(** ** Races that happen *)

Section Happen.
Local Opaque maxTreeDepth fanout fb.
Context {E : Env} {HE : EnvOk E} {T : Type} {K : Key T} {vok : T -> Prop} {KO : KeyOk K vok}.

Lemma pendingWs_app {A X F} p (l1 l2 : list (worker A X F)) : forall i, pendingWs p (l1 ++ l2) i = (pendingWs p l1 i ++ pendingWs p l2 (i + length l1))%list.
Proof.
  induction l1 as [|w l1 IH]; intros i; simpl; [rewrite Nat.add_0_r; auto|]. rewrite IH, <- app_assoc. do 3 f_equal. lia.
Qed.

(** Two slots of the root at which one of the operands has no child: the goroutines of these slots race for the mask. *)
Lemma c71_union_races limit s t r m1 d1 m2 d2 i j : 1 <= limit -> SetReach vok s -> SetReach vok t -> s_union s t = Ok r ->
  t_root (s_tree s) = Some (Branch m1 d1) -> t_root (s_tree t) = Some (Branch m2 d2) ->
  In i (mask_indices (N.lor m1 m2)) -> In j (mask_indices (N.lor m1 m2)) -> i <> j ->
  child d1 i = None \/ child d2 i = None -> child d1 j = None \/ child d2 j = None ->
  Races (PMask [0%nat]) (s_unionC limit s t).
Proof.
  intros Hl Hs Ht Er Es Et Hi Hj Hij Ci Cj. pose proof (proj1 (c20_union s t Hs Ht) limit) as HA. rewrite Er in HA. revert HA.
  unfold s_unionC, t_combineC. rewrite Es, Et. unfold cmap. unfold Races, Always.
  replace treeFuel with (S (pred treeFuel)) by (unfold treeFuel; lia). generalize (pred treeFuel). intros fuel. cbn [combineC].
  unfold forkOrLoop. destruct (Z.ltb_spec (Z.of_nat 0) limit); [|lia].
  match goal with |- context [map ?w (mask_indices _)] => set (W := w) end.
  assert (HW : forall x, child d1 x = None \/ child d2 x = None -> exists y, W x = WAct (setNonNilActs x y (WSend true 0))).
  { intros x Hx. unfold W. destruct (child d1 x) as [a|], (child d2 x) as [b|]; eauto. destruct Hx; discriminate. }
  destruct (HW i Ci) as (yi & Wi). destruct (HW j Cj) as (yj & Wj). clearbody W.
  match goal with |- context [GFork _ _ _ _ _ ?k] => generalize k end. intros k [_ HA].
  remember (mask_indices (N.lor m1 m2)) as idx. assert (Hlen : exists k, length idx = S k) by (destruct idx; [contradiction|simpl; eauto]).
  destruct Hlen as (len & Hlen). rewrite Hlen in *. destruct (HA _ _ (runs_refl _ _ _)) as [Hnc _]. clear HA.
  apply in_split in Hi as (a & b & Eab). rewrite Eab, map_app in *. cbn [map] in *. rewrite Wi in *.
  set (w' := WAct (WStoreMask (N.lor 0 (newMasker i)) (WStoreSlot i yi (WSend true 0))) : worker (node T * Z) (node T) (T -> T -> T)).
  set (g := GFork _ _ _ _ _ _) in *.
  exists (None, [TProg (GFork (map W a ++ w' :: map W b) (0%N, repeat None fanout) [] (S len) 0 k)], (fresh g + 0)%nat). split.
  - eapply sruns_step; [| |apply sruns_refl].
    + intros (x & [<-|[]] & Hc). contradiction (Hnc Hc).
    + unfold start. apply (s_thread fanout None [] (TProg g) [] (fresh g) None _ [] 0). constructor. unfold g. apply e_worker with (l := LLoad 0%N); [|simpl; auto]. exact (ew_load fanout None 0%N (fun m => WStoreMask (N.lor m (newMasker i)) (WStoreSlot i yi (WSend true 0)))).
  - unfold Race. cbn [fst snd pendingTs pendingT]. rewrite app_nil_r, pending_fork. cbn [callerReads app].
    rewrite pendingWs_app. cbn [pendingWs]. unfold w' at 1. cbn [pendingW actAccess app].
    assert (HPj : forall x, pendingW [0%nat] x (W j) = [(PMask [0%nat], false)]) by (intros x; rewrite Wj; reflexivity).
    assert (Hin : In j a \/ In j b).
    { apply in_app_iff in Hj as [?|[?|?]]; auto. congruence. }
    destruct Hin as [Hin|Hin]; apply in_split in Hin as (e & f & ->); rewrite map_app; cbn [map]; rewrite pendingWs_app; cbn [pendingWs]; rewrite HPj.
    + match goal with |- context [(?A ++ [?x] ++ ?B) ++ ?y :: ?C] => exists A, x, B, y, C; rewrite <- (app_assoc A ([x] ++ B)) end.
      split; [reflexivity|]. split; [reflexivity|split; reflexivity].
    + eexists _, (PMask [0%nat], true), _, (PMask [0%nat], false), _. split; [reflexivity|]. split; [reflexivity|split; reflexivity].
Qed.
End Happen.

(** A schedule that leads to a race. *)
Lemma races_by {E : Env} {B} (p : conc B) cs v l1 a l2 b l3 :
  match p with
  | CRun g _ => match ssched fanout cs (start g) with Some s => pendingTs (snd (fst s)) 0 | None => [] end
  | _ => []
  end = (l1 ++ a :: l2 ++ b :: l3)%list -> fst a = v -> conflict a b -> Races v p.
Proof.
  destruct p as [x| |A X F g fin]; try (intros H; destruct l1; discriminate).
  destruct (ssched fanout cs (start g)) as [s|] eqn:Es; intros H Hv Hc; [|destruct l1; discriminate].
  exists s. split; [apply (ssched_runs fanout cs); auto|]. exists l1, a, l2, b, l3. auto.
Qed.

(** Integers whose place in the root branch is their value modulo 8, and sets of them. *)
Definition keyC : Key Z := {| veq := Z.eqb; vhash := fun a seed => wrap 64 (Z.to_N a * 2 ^ 61) |}.
Definition rS : set Z := Eval vm_compute in okOr s_empty (s_new (K := keyC) [0; 1; 2; 3]).
Definition rT : set Z := Eval vm_compute in okOr s_empty (s_new (K := keyC) [0; 8; 1; 9]).
Definition rU : set Z := Eval vm_compute in okOr s_empty (s_new (K := keyC) [4; 5; 6]).
Lemma rS_reach : SetReach (K := keyC) anyZ rS.
Proof. apply (sr_new _ _ _ [0; 1; 2; 3]); [intros v _; exact Logic.I|]. vm_compute. reflexivity. Qed.
Lemma rT_reach : SetReach (K := keyC) anyZ rT.
Proof. apply (sr_new _ _ _ [0; 8; 1; 9]); [intros v _; exact Logic.I|]. vm_compute. reflexivity. Qed.
Lemma rU_reach : SetReach (K := keyC) anyZ rU.
Proof. apply (sr_new _ _ _ [4; 5; 6]); [intros v _; exact Logic.I|]. vm_compute. reflexivity. Qed.

(** Union races for a mask, and for [flipped], even of sets of three and four elements, if FROZEN_CONCURRENCY is -1. *)
Lemma c71_union_refuted : exists (s t u : set Z), SetReach (K := keyC) anyZ s /\ SetReach (K := keyC) anyZ t /\ SetReach (K := keyC) anyZ u /\
  gaugeFor "-1" 8 (s_count s) = 1 /\
  Races (PMask [0%nat]) (s_unionC (K := keyC) 1 s u) /\ Races PFlip (s_unionC (K := keyC) 1 s t).
Proof.
  exists rS, rT, rU. split; [apply rS_reach|]. split; [apply rT_reach|]. split; [apply rU_reach|]. split; [vm_compute; reflexivity|]. split.
  - apply (races_by (s_unionC (K := keyC) 1 rS rU) [(0, [0])]%nat (PMask [0%nat]) [] (PMask [0%nat], true) [] (PMask [0%nat], false) (repeat (PMask [0%nat], false) 5));
      [vm_compute; reflexivity|reflexivity|split; reflexivity].
  - apply (races_by (s_unionC (K := keyC) 1 rS rT) [(0, [0])]%nat PFlip [] (PFlip, true) [] (PFlip, false) (repeat (PMask [0%nat], false) 2));
      [vm_compute; reflexivity|reflexivity|split; reflexivity].
Qed.
