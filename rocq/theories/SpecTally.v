(** * SpecTally: how many elements results have (C77). A weighted sum of the counts of expressions of sets is never positive, for any
    sets, if the same sum for the truth values of the expressions is not, and only then. *)
From Verif Require Import Base Bits Env EnvFacts Node NodeWf NodeBin NodeBin2 NodeUn Iter Tree TreeFacts SetApi SetFacts MapApi MapFacts Reach Spec SpecSet SpecMap SpecLaws.
Local Open Scope Z_scope.

(** A weighted sum of expressions for one value: each one that holds the value adds its weight. *)
Fixpoint tally (b q : nat -> bool) (ts : list (Z * sexp)) : Z :=
  match ts with [] => 0 | (c, e) :: ts' => (if sden b q e then c else 0) + tally b q ts' end.

(** Below: the truth table of the sum. *)
Definition atMost0 (n m : nat) (ts : list (Z * sexp)) : bool :=
  forallb (fun t => within n m (snd t)) ts && forallb (fun b => forallb (fun q => tally b q ts <=? 0) (assignments m)) (assignments n).

Lemma atMost0_spec n m ts : atMost0 n m ts = true -> forall b q, tally b q ts <= 0.
Proof.
  unfold atMost0. intros H b q. apply andb_prop in H as [H1 H2].
  destruct (assignments_all n b) as (b' & Hb & Eb). destruct (assignments_all m q) as (q' & Hq & Eq).
  replace (tally b q ts) with (tally b' q' ts).
  - rewrite forallb_forall in H2. specialize (H2 b' Hb). rewrite forallb_forall in H2. apply Z.leb_le. auto.
  - clear H2. induction ts as [|[c e] ts IH]; cbn [tally]; auto. cbn [forallb snd] in H1. apply andb_prop in H1 as [H0 H1].
    rewrite IH by auto. rewrite (sden_ext b b' q q' n m e) by auto. auto.
Qed.

Section Tally.
Context {E : Env} {HE : EnvOk E} {T : Type} {K : Key T} {vok : T -> Prop} {KO : KeyOk K vok}.
Local Opaque maxTreeDepth fanout fb.

(** The weighted sum of the counts of the results. *)
Fixpoint counted (cs : list Z) (rs : list (set T)) : Z :=
  match cs, rs with c :: cs', r :: rs' => c * s_count r + counted cs' rs' | _, _ => 0 end.

Lemma cover_le (a : list T) : forall b, allok vok a -> allok vok b -> distinct a -> (forall x, In x a -> exists y, In y b /\ veq y x = true) ->
  (length a <= length b)%nat.
Proof.
  induction a as [|x a IH]; intros b Ha Hb Hd Hc; cbn [length]; [lia|].
  destruct (Hc x (or_introl eq_refl)) as (y & Hy & Hq). apply in_split in Hy as (b1 & b2 & ->). rewrite app_length. cbn [length].
  inversion Hd as [|x' a' Hx Hd']; subst.
  assert (Hvy : vok y) by (apply Hb, in_or_app; right; left; auto). assert (Hvx : vok x) by (apply Ha; left; auto).
  specialize (IH (b1 ++ b2)). rewrite app_length in IH. cut (length a <= length b1 + length b2)%nat; [lia|]. apply IH; auto.
  - intros e He. apply Ha. right. auto.
  - intros e He. apply Hb, in_or_app. apply in_app_or in He as [He|He]; auto. right. right. auto.
  - intros z Hz. destruct (Hc z (or_intror Hz)) as (y' & Hy' & Hq'). apply in_app_or in Hy' as [Hy'|[<-|Hy']]; try (exists y'; split; auto; apply in_or_app; auto; fail).
    exfalso. assert (Hvz : vok z) by (apply Ha; right; auto). specialize (Hx z Hz).
    assert (veq x z = true); [|congruence]. apply (veq_trans x y z); auto. apply veq_sym; auto.
Qed.

(** The elements of a list for which [p] is true, as a sum. *)
Fixpoint tallied (p : T -> bool) (u : list T) : Z := match u with [] => 0 | x :: u' => (if p x then 1 else 0) + tallied p u' end.
Lemma tallied_filter p u : tallied p u = Z.of_nat (length (filter p u)).
Proof. induction u as [|x u IH]; cbn [tallied filter]; auto. rewrite IH. destruct (p x); cbn [length]; lia. Qed.

Lemma distinct_filter (p : T -> bool) u : distinct u -> distinct (filter p u).
Proof.
  induction 1 as [|x u Hx Hd IH]; cbn [filter]; [constructor|]. destruct (p x); auto. constructor; auto.
  intros b Hb. apply filter_In in Hb as [Hb _]. auto.
Qed.

(** A set's count is the number of the members of [u] it has, if all of its elements are in [u]. *)
Lemma count_tallied r u : SetReach vok r -> allok vok u -> distinct u -> (forall x, In x (sel r) -> exists y, In y u /\ veq y x = true) ->
  s_count r = tallied (isIn r) u.
Proof.
  intros Hr Hu Hd Hc. apply sreach_ok in Hr as Ho. rewrite (s_count_ok (vok := vok)), tallied_filter by auto. f_equal.
  assert (Hin : forall w, vok w -> isIn r w = true <-> exists e, In e (sel r) /\ veq e w = true).
  { intros w Hw. rewrite isIn_has, has_lookup, lookup_not_None by auto. tauto. }
  assert (Hf : allok vok (filter (isIn r) u)) by (intros e He; apply filter_In in He as [He _]; auto).
  assert (Hro : allok vok (sel r)) by (exact (sok_allok r Ho)). pose proof (sok_distinct (vok := vok) r Ho) as Hrd.
  apply Nat.le_antisymm.
  - apply cover_le; [exact Hro|exact Hf|exact Hrd|]. intros x Hx. destruct (Hc x Hx) as (y & Hy & Hq). exists y. split; auto. apply filter_In. split; auto. apply Hin; auto.
    exists x. split; auto. apply veq_sym; auto.
  - apply cover_le; [exact Hf|exact Hro|apply distinct_filter; exact Hd|]. intros x Hx. apply filter_In in Hx as [Hx Hi]. apply Hin in Hi; auto.
Qed.

(** Every list has a sublist without equal values that covers it. *)
Lemma cover_exists (l : list T) : allok vok l -> exists u, allok vok u /\ distinct u /\ forall x, In x l -> exists y, In y u /\ veq y x = true.
Proof.
  induction l as [|x l IH]; intros Hl.
  - exists []. split; [intros e []|]. split; [constructor|]. intros x [].
  - destruct IH as (u & Hu & Hd & Hc); [intros e He; apply Hl; right; auto|]. assert (Hx : vok x) by (apply Hl; left; auto).
    destruct (existsb (fun y => veq y x) u) eqn:Ex.
    + apply existsb_exists in Ex. exists u. split; auto. split; auto. intros z [<-|Hz]; auto.
    + exists (x :: u). split; [intros e [<-|He]; auto|]. split.
      * constructor; auto. intros y Hy. destruct (veq x y) eqn:Exy; auto. exfalso. apply veq_sym in Exy; auto.
        assert (existsb (fun y => veq y x) u = true); [|congruence]. apply existsb_exists. eauto.
      * intros z [<-|Hz]; [exists x; split; [left; auto|apply veq_refl; auto]|]. destruct (Hc z Hz) as (y & Hy & Hq). exists y. split; auto. right. auto.
Qed.

(** The sum of the counts is the sum over the members of [u] of their tallies. *)
Fixpoint tallies (f : T -> Z) (u : list T) : Z := match u with [] => 0 | x :: u' => f x + tallies f u' end.
Lemma tallies_add f g h u : (forall x, In x u -> h x = f x + g x) -> tallies h u = tallies f u + tallies g u.
Proof. induction u as [|x u IH]; intros H; cbn [tallies]; [lia|]. rewrite (H x) by (left; auto). rewrite IH by (intros y Hy; apply H; right; auto). lia. Qed.
Lemma tallies_le f u : (forall x, In x u -> f x <= 0) -> tallies f u <= 0.
Proof. induction u as [|x u IH]; intros H; cbn [tallies]; [lia|]. specialize (H x (or_introl eq_refl)) as Hx. specialize (IH (fun y Hy => H y (or_intror Hy))). lia. Qed.
Lemma tallied_tallies c (p : T -> bool) (g : T -> Z) u : (forall x, In x u -> g x = if p x then c else 0) -> tallies g u = c * tallied p u.
Proof. induction u as [|x u IH]; intros H; cbn [tallies tallied]; [lia|]. rewrite (H x) by (left; auto). rewrite IH by (intros y Hy; apply H; right; auto). destruct (p x); lia. Qed.

Lemma counted_tallies rho pi u (ts : list (Z * sexp)) rs : (forall i, SetReach vok (rho i)) -> (forall j, respects vok (pi j)) -> allok vok u -> distinct u ->
  Forall2 (fun t r => srun rho pi (snd t) = Ok r) ts rs -> (forall r x, In r rs -> In x (sel r) -> exists y, In y u /\ veq y x = true) ->
  counted (map fst ts) rs = tallies (fun w => tally (fun i => isIn (rho i) w) (fun j => pi j w) ts) u.
Proof.
  intros Hr Hp Hu Hd H2. induction H2 as [|[c e] r ts rs Er H2 IH]; intros Hc; cbn [counted map fst].
  - cbn [tally]. clear. induction u; cbn [tallies]; lia.
  - cbn [snd] in Er. rewrite IH by (intros r' x Hr' Hx; apply (Hc r'); auto; right; auto).
    destruct (c65_meaning rho pi e Hr Hp) as [Ep|(r' & Er' & Hr' & Ir)]; [congruence|]. assert (r' = r) as -> by congruence.
    rewrite (count_tallied r u) by (auto; intros x Hx; apply (Hc r); auto; left; auto).
    rewrite <- (tallied_tallies c (isIn r) (fun w => if sden (fun i => isIn (rho i) w) (fun j => pi j w) e then c else 0)) by (intros x Hx; rewrite (Ir x) by auto; auto).
    symmetry. apply tallies_add. intros x Hx. reflexivity.
Qed.

(** If the sum of weights is never positive, neither is the sum of the counts. *)
Lemma c77_counts (ts : list (Z * sexp)) rho pi rs : (forall b q, tally b q ts <= 0) -> (forall i, SetReach vok (rho i)) -> (forall j, respects vok (pi j)) ->
  Forall2 (fun t r => srun rho pi (snd t) = Ok r) ts rs -> counted (map fst ts) rs <= 0.
Proof.
  intros Ht Hr Hp H2.
  assert (Hok : forall r, In r rs -> sok vok r).
  { intros r Hin. clear Ht. induction H2 as [|t r' ts rs Er H2 IH]; [destruct Hin|]. destruct Hin as [->|Hin]; auto.
    destruct (c65_meaning rho pi (snd t) Hr Hp) as [Ep|(r'' & Er' & Hr' & _)]; [congruence|]. assert (r'' = r) as -> by congruence. apply sreach_ok; auto. }
  destruct (cover_exists (flat_map sel rs)) as (u & Hu & Hd & Hc).
  { intros e He. apply in_flat_map in He as (r & Hin & He). apply (sok_allok r (Hok r Hin)); auto. }
  rewrite (counted_tallies rho pi u ts rs) by (auto; intros r x Hin Hx; apply Hc, in_flat_map; eauto).
  apply tallies_le. auto.
Qed.

(** The truth table decides. *)
Lemma c77_table n m (ts : list (Z * sexp)) rho pi rs : atMost0 n m ts = true -> (forall i, SetReach vok (rho i)) -> (forall j, respects vok (pi j)) ->
  Forall2 (fun t r => srun rho pi (snd t) = Ok r) ts rs -> counted (map fst ts) rs <= 0.
Proof. intros H. apply c77_counts. apply (atMost0_spec n m). auto. Qed.

(** And only then: for sets with the one element [v] or none, the sum of the counts is the sum of the weights, so that it is positive
    if that is. *)
Lemma c77_only (ts : list (Z * sexp)) (b q : nat -> bool) v one rs : vok v -> s_new [v] = Ok one ->
  Forall2 (fun t r => srun (fun i => if b i then one else s_empty) (fun j _ => q j) (snd t) = Ok r) ts rs -> counted (map fst ts) rs = tally b q ts.
Proof.
  intros Hv E1 H2. destruct (s_new_ok (vok := vok) [v]) as (one' & E1' & Ho & Hl); [intros e [<-|[]]; auto|]. assert (one' = one) as -> by congruence.
  assert (Hone : SetReach vok one) by (apply (sr_new _ _ _ [v]); auto; intros e [<-|[]]; auto).
  set (rho := fun i => if b i then one else s_empty) in *. set (pi := fun j (_ : T) => q j) in *.
  assert (Hr : forall i, SetReach vok (rho i)) by (intros i; unfold rho; destruct (b i); auto; constructor).
  assert (Hp : forall j, respects vok (pi j)) by (intros j x y _ _ _; reflexivity).
  assert (Hin : isIn one v = true) by (apply isIn_has, has_lookup; auto; rewrite Hl by auto; cbn; rewrite veq_refl by auto; discriminate).
  rewrite (counted_tallies rho pi [v] ts rs); auto.
  - cbn [tallies]. rewrite Z.add_0_r. assert (Hi : forall i, isIn (rho i) v = b i) by (intros i; unfold rho; destruct (b i); auto).
    clear - Hi. induction ts as [|[c e] ts IH]; cbn [tally]; auto. rewrite IH. f_equal.
    replace (sden (fun i => isIn (rho i) v) (fun j => pi j v) e) with (sden b q e); auto. induction e; cbn [sden]; rewrite <- ?IHe1, <- ?IHe2, <- ?IHe; auto.
  - intros e [<-|[]]; auto.
  - constructor; [intros x []|constructor].
  - intros r x Hrin Hx. exists v. split; [left; auto|].
    assert (Hrun : exists e, srun rho pi e = Ok r).
    { clear - H2 Hrin. induction H2 as [|t r' ts rs Er H2 IH]; [destruct Hrin|]. destruct Hrin as [->|Hrin]; eauto. }
    destruct Hrun as (e & Er). destruct (c65_meaning rho pi e Hr Hp) as [Ep|(r' & Er' & Hr' & Ir)]; [congruence|]. assert (r' = r) as -> by congruence.
    pose proof (sreach_ok r Hr') as Hok. pose proof (sok_allok r Hok x Hx) as Hxv. destruct (veq v x) eqn:Ev; auto. exfalso.
    assert (Hi : isIn r x = true) by (apply isIn_has, has_lookup; auto; apply lookup_not_None; exists x; split; auto; apply veq_refl; auto).
    assert (Hn : forall i, isIn (rho i) x = false).
    { intros i. apply not_true_iff_false. rewrite isIn_has, has_lookup by (auto; apply sreach_ok; auto). unfold rho. destruct (b i); [|cbn; congruence].
      rewrite Hl by auto. cbn. rewrite Ev. congruence. }
    rewrite (Ir x Hxv) in Hi. assert (Hz : forall e, sden (fun i => isIn (rho i) x) (fun j => pi j x) e = false).
    { induction e0; cbn [sden]; auto; rewrite ?IHe0_1, ?IHe0_2, ?IHe0; auto. }
    rewrite Hz in Hi. discriminate.
Qed.

(** Inclusion and exclusion, for two sets. *)
Lemma c77_pair s t u i d x : SetReach vok s -> SetReach vok t ->
  s_union s t = Ok u -> s_intersection s t = Ok i -> s_difference s t = Ok d -> s_symmetricDifference s t = Ok x ->
  s_count u + s_count i = s_count s + s_count t /\ s_count d + s_count i = s_count s /\ s_count x + 2 * s_count i = s_count s + s_count t.
Proof.
  intros Hs Ht Eu Ei Ed Ex. set (rho := fun i => match i with O => s | _ => t end). set (pi := fun (_ : nat) (_ : T) => true).
  assert (Hr : forall i, SetReach vok (rho i)) by (intros [|n]; auto).
  assert (Hp : forall j, respects vok (pi j)) by (intros j a b _ _ _; reflexivity).
  pose (rs := [u; i; d; x; s; t]).
  assert (Q : forall cu ci cd cx cs ct, atMost0 2 0 [(cu, SUnion (SVar 0) (SVar 1)); (ci, SInter (SVar 0) (SVar 1)); (cd, SDiff (SVar 0) (SVar 1)); (cx, SXor (SVar 0) (SVar 1)); (cs, SVar 0); (ct, SVar 1)] = true ->
    cu * s_count u + (ci * s_count i + (cd * s_count d + (cx * s_count x + (cs * s_count s + (ct * s_count t + 0))))) <= 0).
  { intros. refine (c77_table 2 0 _ rho pi rs H Hr Hp _). unfold rs. repeat constructor; cbn [srun snd bind rho]; auto. }
  pose proof (Q 1 1 0 0 (-1) (-1) eq_refl). pose proof (Q (-1) (-1) 0 0 1 1 eq_refl). pose proof (Q 0 1 1 0 (-1) 0 eq_refl). pose proof (Q 0 (-1) (-1) 0 1 0 eq_refl).
  pose proof (Q 0 2 0 1 (-1) (-1) eq_refl). pose proof (Q 0 (-2) 0 (-1) 1 1 eq_refl). lia.
Qed.

(** A subset has no more elements, and if it has as many it is the whole set. *)
Lemma c77_subset s t : SetReach vok s -> SetReach vok t -> s_isSubsetOf s t = Ok true ->
  s_count s <= s_count t /\ (s_count s = s_count t <-> s_equal s t = Ok true).
Proof.
  intros Hs Ht Hsub. destruct (c06_isSubsetOf s t Hs Ht) as (b & Eb & Hb). assert (b = true) as -> by congruence. specialize (proj1 Hb eq_refl) as Hin. clear Hb Eb.
  pose proof (sreach_ok s Hs) as Os. pose proof (sreach_ok t Ht) as Ot.
  assert (Hs1 : s_count s = tallied (isIn s) (sel t)).
  { apply count_tallied; auto; [apply sok_allok; auto|apply (sok_distinct (vok := vok)); auto|]. intros x Hx. pose proof (sok_allok s Os x Hx) as Hxv.
    apply lookup_not_None. apply has_lookup; auto. apply Hin; auto. apply has_lookup; auto. apply lookup_not_None. exists x. split; auto. apply veq_refl; auto. }
  assert (Hle : forall p (l : list T), tallied p l <= Z.of_nat (length l) /\ (tallied p l = Z.of_nat (length l) -> forall x, In x l -> p x = true)).
  { intros p l. induction l as [|x l [IH1 IH2]]; cbn [tallied length]; [split; [lia|intros _ x []]|]. split; [destruct (p x); lia|].
    intros H y [<-|Hy]; [destruct (p x); auto; lia|]. apply IH2; auto. destruct (p x); lia. }
  destruct (Hle (isIn s) (sel t)) as [H1 H2]. rewrite Hs1, (s_count_ok (vok := vok)) by auto. split; auto.
  destruct (c05_equal s t Hs Ht) as (b & -> & Hb). split.
  - intros H. f_equal. apply Hb. intros v Hv. split; [auto|]. intros Hh. rewrite has_lookup, lookup_not_None in Hh by auto. destruct Hh as (e & He & Hq).
    specialize (H2 H e He). apply isIn_has in H2. rewrite has_lookup in H2 |- * by (auto; apply (sok_allok t Ot); auto). apply lookup_not_None in H2 as (f & Hf & Hfq). apply lookup_not_None. exists f. split; auto.
    apply (veq_trans f e v); auto; [apply (sok_allok s Os); auto|apply (sok_allok t Ot); auto].
  - intros Heq. assert (b = true) as -> by congruence. specialize (proj1 Hb eq_refl) as Hsame.
    assert (Hall : forall l, (forall x, In x l -> isIn s x = true) -> tallied (isIn s) l = Z.of_nat (length l)).
    { induction l as [|x l IH]; intros H; cbn [tallied length]; auto. rewrite (H x) by (left; auto). rewrite IH by (intros y Hy; apply H; right; auto). lia. }
    apply Hall. intros x Hx. pose proof (sok_allok t Ot x Hx) as Hxv. apply isIn_has. apply Hsame; auto. apply has_lookup; auto. apply lookup_not_None. exists x. split; auto. apply veq_refl; auto.
Qed.

End Tally.

Section TallyMap.
Context {E : Env} {HE : EnvOk E} {X V : Type} {KX : Key X} {kok : X -> Prop} {valok : V -> Prop} {KO : KeyOk KX kok} {ZV : Zero V}.
Local Opaque maxTreeDepth fanout fb.

Lemma unequal_distinct (l : list X) : Unequal l -> distinct l.
Proof.
  induction l as [|a l IH]; intros H; constructor.
  - intros b Hb. apply In_nth_error in Hb as (n & Hn). apply (H O (S n) a b); auto.
  - apply IH. intros i j a' b' Hi Hj Hij. apply (H (S i) (S j)); auto.
Qed.

(** A map has as many entries as keys. *)
Lemma c77_keys (m : gomap X V) ks : MapReach kok valok m -> m_keys m = Ok ks -> m_count m = s_count ks.
Proof.
  intros Hm Ek. destruct (c24_keys m Hm) as (ks' & Ek' & _ & Hk). assert (ks' = ks) as -> by congruence.
  destruct (c21_answers m Hm) as (F & (_ & l & El & (H1 & H2 & _) & Hc) & _). rewrite Hc.
  assert (Hks : SetReach kok ks) by (eapply sr_keys; eauto). pose proof (sreach_ok ks Hks) as Ho. rewrite (s_count_ok (vok := kok)) by auto. f_equal.
  rewrite <- (map_length fst l).
  assert (Hsame : forall k, In k (map fst l) <-> In k (sel ks)).
  { intros k. rewrite <- (holds_In (vok := kok) ks k Ho), Hk. split.
    - intros H. apply in_map_iff in H as ([k' v] & <- & H). exists v, l. auto.
    - intros (v & l' & El' & H). assert (l' = l) as -> by congruence. apply in_map_iff. exists (k, v). auto. }
  assert (Hok : allok kok (map fst l)) by (intros k H; apply in_map_iff in H as (kv & <- & H); auto).
  assert (Hok' : allok kok (sel ks)) by (intros k H; apply Hok, Hsame; auto).
  apply Nat.le_antisymm; [apply (cover_le (vok := kok) (map fst l) (sel ks))|apply (cover_le (vok := kok) (sel ks) (map fst l))]; auto.
  - apply unequal_distinct. auto.
  - intros k H. exists k. split; [apply Hsame; auto|apply veq_refl; auto].
  - apply (sok_distinct (vok := kok)). auto.
  - intros k H. exists k. split; [apply Hsame; auto|apply veq_refl; auto].
Qed.

(** The count of an Update: keys that both maps have count once. *)
Lemma c77_update (m n r : gomap X V) km kn u i : MapReach kok valok m -> MapReach kok valok n -> m_update m n = Ok r ->
  m_keys m = Ok km -> m_keys n = Ok kn -> s_union km kn = Ok u -> s_intersection km kn = Ok i ->
  m_count r + s_count i = m_count m + m_count n.
Proof.
  intros Hm Hn Er Em En Eu Ei. assert (Hr : MapReach kok valok r) by (apply (mr_update _ _ _ _ _ _ m n); auto).
  destruct (c24_keys r Hr) as (kr & Ekr & _).
  pose proof (c65_update_keys m n r kr km kn u Hm Hn Er Ekr Em En Eu) as Heq.
  assert (Rm : SetReach kok km) by (apply (sr_keys X V KX ZV kok valok m); auto). assert (Rn : SetReach kok kn) by (apply (sr_keys X V KX ZV kok valok n); auto).
  assert (Rr : SetReach kok kr) by (apply (sr_keys X V KX ZV kok valok r); auto). assert (Ru : SetReach kok u) by (apply (sr_union _ _ _ km kn); auto).
  rewrite (c77_keys r kr), (c77_keys m km), (c77_keys n kn) by auto.
  assert (Hc : s_count kr = s_count u).
  { apply (c77_subset (vok := kok) kr u); auto. destruct (c06_isSubsetOf kr u Rr Ru) as (b & -> & Hb). f_equal. apply Hb.
    destruct (c05_equal kr u Rr Ru) as (b' & Eb' & Hb'). assert (b' = true) as -> by congruence. intros v Hv. apply (proj1 Hb' eq_refl); auto. }
  rewrite Hc. set (rho := fun i => match i with O => km | _ => kn end). set (pi := fun (_ : nat) (_ : X) => true).
  assert (Hrho : forall i, SetReach kok (rho i)) by (intros [|k]; auto).
  assert (Hp : forall j, respects kok (pi j)) by (intros j a b _ _ _; reflexivity).
  assert (Q : forall c, c = 1 \/ c = -1 ->
    c * s_count u + (c * s_count i + (- c * s_count km + (- c * s_count kn + 0))) <= 0).
  { intros c Hcc. refine (c77_table 2 0 [(c, SUnion (SVar 0) (SVar 1)); (c, SInter (SVar 0) (SVar 1)); (- c, SVar 0); (- c, SVar 1)] rho pi [u; i; km; kn] _ Hrho Hp _).
    - destruct Hcc as [-> | ->]; reflexivity.
    - repeat constructor; cbn [srun snd bind rho]; auto. }
  pose proof (Q 1 (or_introl eq_refl)). pose proof (Q (-1) (or_intror eq_refl)). lia.
Qed.

End TallyMap.
