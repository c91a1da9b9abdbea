(** * SpecInt: lemmas behind property C30 (IntSet). *)
From Coq Require Import Permutation.
From Verif Require Import Base Bits Env EnvFacts Node NodeWf Iter Tree TreeFacts SetApi SetFacts MapApi MapFacts ExtraFacts IntSet IntFacts.
Local Open Scope Z_scope.

(** ** Vocabulary *)

(** [n] more calls of Next all report false. *)
Fixpoint IntDone {E : Env} (n : nat) (i : intIter) : Prop :=
  match n with
  | O => True
  | S n => exists i', ii_next i = Ok (false, i') /\ IntDone n i'
  end.
(** Calling Next and Value alternately gives the values [l], and then Next reports false for ever. *)
Inductive IntYields {E : Env} (I : intTy) : intIter -> list Z -> Prop :=
| iy_end i : (forall n, IntDone n i) -> IntYields I i []
| iy_step i i' l : ii_next i = Ok (true, i') -> IntYields I i' l -> IntYields I i (ii_value I i' :: l).

(** [s] answers Has, Elements, Range, Count, IsEmpty and Any as the set of integers [P]. *)
Record IntAnswers {E : Env} (I : intTy) (h : Z -> N -> N) (s : intSet) (P : Z -> Prop) : Prop := {
  ia_has : forall i, it_in I i -> exists b, is_has h s i = Ok b /\ (b = true <-> P i);
  ia_elements : exists l, is_elements I s = Ok l /\ NoDup l /\ (forall i, In i l <-> P i) /\
                  IntYields I (is_range s) l /\ is_count s = Z.of_nat (length l);
  ia_isEmpty : is_isEmpty s = true <-> forall i, ~ P i;
  ia_any : (exists i, P i /\ is_any I s = Ok i) \/ ((forall i, ~ P i) /\ is_any I s = Panic)
}.

(** The sets of type [IntSet[I]] that a program can obtain if all the integers it passes in satisfy [ok].
    [h] is the hash function on the cell indexes. *)
Inductive IntReach {E : Env} (I : intTy) (h : Z -> N -> N) (ok : Z -> Prop) : intSet -> Prop :=
| ir_empty : IntReach I h ok is_empty
| ir_new ord l s : (forall g, Permutation (ord g) g) -> (forall i, In i l -> it_in I i /\ ok i) ->
    is_new h ord l = Ok s -> IntReach I h ok s
| ir_with s i r : IntReach I h ok s -> it_in I i -> ok i -> is_with h s i = Ok r -> IntReach I h ok r
| ir_without s i r : IntReach I h ok s -> it_in I i -> is_without h s i = Ok r -> IntReach I h ok r
| ir_where s pred r : IntReach I h ok s -> is_where I h s pred = Ok r -> IntReach I h ok r
| ir_map ord s f r : (forall g, Permutation (ord g) g) -> IntReach I h ok s ->
    (forall i, it_in I i -> it_in I (f i) /\ ok (f i)) -> is_map I h ord s f = Ok r -> IntReach I h ok r
| ir_intersection s t r : IntReach I h ok s -> IntReach I h ok t -> is_intersection h s t = Ok r -> IntReach I h ok r
| ir_union s t r : IntReach I h ok s -> IntReach I h ok t -> is_union h s t = Ok r -> IntReach I h ok r.

(** Membership as a proposition. *)
Definition IntIn {E : Env} (h : Z -> N -> N) (s : intSet) (i : Z) : Prop := is_has h s i = Ok true.

(** ** Lemmas *)

Section SpecInt.
Local Opaque maxTreeDepth fanout fb ctz popcount one_bits strip_low.
Context {E : Env} {HE : EnvOk E} (I : intTy) (h : Z -> N -> N) (HI : it_ok I).

Lemma reach_isok s : IntReach I h fits s -> isok I h s.
Proof.
  induction 1.
  - apply isok_empty.
  - destruct (is_new_ok I h ord l) as (r & E1 & Hr & _); auto. congruence.
  - destruct (is_with_ok I h s i IHIntReach) as (r' & E1 & Hr & _); auto. congruence.
  - destruct (is_without_ok I h s i IHIntReach) as (r' & E1 & Hr & _); auto. congruence.
  - destruct (is_where_ok I h HI s pred IHIntReach) as (r' & E1 & Hr & _); auto. congruence.
  - destruct (is_map_ok I h HI ord s f) as (r' & E1 & Hr & _); auto; [|congruence].
    intros i Hi. apply H1. apply (member_fits I h s i); auto.
  - destruct (is_intersection_ok I h s t) as (r' & E1 & Hr & _); auto. congruence.
  - destruct (is_union_ok I h s t) as (r' & E1 & Hr & _); auto. congruence.
Qed.

Lemma IntIn_member s i : isok I h s -> IntIn h s i <-> member h s i = true.
Proof. intros H. unfold IntIn. rewrite (is_has_ok I h s i H). split; congruence. Qed.

Lemma iiok_done i : iiok h i -> iiRest I i = [] -> forall n, IntDone n i.
Proof.
  intros Hi Hr n. revert i Hi Hr. induction n as [|n IH]; intros i Hi Hr; [exact Logic.I|].
  destruct (ii_next_ok I h i Hi) as (b & i' & E1 & Hi' & Hn). rewrite Hr in Hn. destruct Hn as [-> Hn].
  exists i'. split; auto.
Qed.

Lemma iiok_yields l : forall i, iiok h i -> iiRest I i = l -> IntYields I i l.
Proof.
  induction l as [|x l IH]; intros i Hi Hr.
  - constructor. apply iiok_done; auto.
  - destruct (ii_next_ok I h i Hi) as (b & i' & E1 & Hi' & Hn). rewrite Hr in Hn. destruct Hn as (-> & Hn & <-).
    constructor; auto.
Qed.

Lemma answers s P : isok I h s -> (forall i, member h s i = true <-> P i) -> IntAnswers I h s P.
Proof.
  intros H HP. constructor.
  - intros i _. exists (member h s i). split; [apply (is_has_ok I); auto|auto].
  - exists (isel I s). split; [apply (is_elements_ok I h); auto|]. split; [apply (isel_NoDup I h HI); auto|].
    split; [intros i; rewrite (isel_In I h HI s i H); auto|]. split.
    + destruct (is_range_ok I h s H) as [Hi Hr]. apply iiok_yields; auto.
    + symmetry. apply (isel_length I h s H).
  - rewrite (is_isEmpty_ok I h s H). destruct (isel I s) as [|i l] eqn:El.
    + split; auto. intros _ i Hi. apply HP in Hi. apply (isel_In I h HI s i H) in Hi. rewrite El in Hi. destruct Hi.
    + split; [discriminate|]. intros Hn. exfalso. apply (Hn i). apply HP. apply (isel_In I h HI s i H). rewrite El. left; auto.
  - rewrite (is_any_ok I h s H). destruct (isel I s) as [|i l] eqn:El.
    + right. split; auto. intros i Hi. apply HP in Hi. apply (isel_In I h HI s i H) in Hi. rewrite El in Hi. destruct Hi.
    + left. exists i. split; auto. apply HP. apply (isel_In I h HI s i H). rewrite El. left; auto.
Qed.

Lemma result r P Q : isok I h r -> (forall i, member h r i = true <-> P i) -> (forall i, P i <-> Q i) -> IntAnswers I h r Q.
Proof. intros H H1 H2. apply answers; auto. intros i. rewrite H1. auto. Qed.

(** Every set answers as the set of the integers it has. *)
Lemma c30_reads s : IntReach I h fits s -> IntAnswers I h s (IntIn h s).
Proof. intros H. apply reach_isok in H. apply answers; auto. intros i. symmetry. apply IntIn_member; auto. Qed.

Lemma c30_empty : IntAnswers I h is_empty (fun _ => False).
Proof.
  apply answers; [apply isok_empty|]. intros i. split; [|tauto]. discriminate.
Qed.

Lemma c30_new ord l : (forall g, Permutation (ord g) g) -> (forall i, In i l -> it_in I i /\ fits i) ->
  exists r, is_new h ord l = Ok r /\ IntAnswers I h r (fun i => In i l).
Proof.
  intros Ho Hl. destruct (is_new_ok I h ord l Ho Hl) as (r & E1 & Hr & Hm). exists r. split; auto. apply answers; auto.
Qed.

Lemma c30_with s i : IntReach I h fits s -> it_in I i -> fits i ->
  exists r, is_with h s i = Ok r /\ IntAnswers I h r (fun j => j = i \/ IntIn h s j).
Proof.
  intros H H1 H2. apply reach_isok in H. destruct (is_with_ok I h s i H H1 H2) as (r & E1 & Hr & Hm).
  exists r. split; auto. apply answers; auto. intros j. rewrite Hm, orb_true_iff, Z.eqb_eq, (IntIn_member s j H).
  split; intros [?|?]; auto.
Qed.

Lemma c30_without s i : IntReach I h fits s -> it_in I i ->
  exists r, is_without h s i = Ok r /\ IntAnswers I h r (fun j => j <> i /\ IntIn h s j).
Proof.
  intros H H1. apply reach_isok in H. destruct (is_without_ok I h s i H) as (r & E1 & Hr & Hm).
  exists r. split; auto. apply answers; auto. intros j.
  rewrite Hm, andb_true_iff, negb_true_iff, Z.eqb_neq, (IntIn_member s j H). split; intros [? ?]; auto.
Qed.

Lemma c30_union s t : IntReach I h fits s -> IntReach I h fits t ->
  exists r, is_union h s t = Ok r /\ IntAnswers I h r (fun i => IntIn h s i \/ IntIn h t i).
Proof.
  intros H H1. apply reach_isok in H. apply reach_isok in H1. destruct (is_union_ok I h s t H H1) as (r & E1 & Hr & Hm).
  exists r. split; auto. apply answers; auto. intros j. rewrite Hm, orb_true_iff, (IntIn_member s j H), (IntIn_member t j H1). tauto.
Qed.

Lemma c30_intersection s t : IntReach I h fits s -> IntReach I h fits t ->
  exists r, is_intersection h s t = Ok r /\ IntAnswers I h r (fun i => IntIn h s i /\ IntIn h t i).
Proof.
  intros H H1. apply reach_isok in H. apply reach_isok in H1. destruct (is_intersection_ok I h s t H H1) as (r & E1 & Hr & Hm).
  exists r. split; auto. apply answers; auto. intros j. rewrite Hm, andb_true_iff, (IntIn_member s j H), (IntIn_member t j H1). tauto.
Qed.

Lemma c30_where s pred : IntReach I h fits s ->
  exists r, is_where I h s pred = Ok r /\ IntAnswers I h r (fun i => IntIn h s i /\ pred i = true).
Proof.
  intros H. apply reach_isok in H. destruct (is_where_ok I h HI s pred H) as (r & E1 & Hr & Hm).
  exists r. split; auto. apply answers; auto. intros j. rewrite Hm, andb_true_iff, (IntIn_member s j H). tauto.
Qed.

Lemma c30_map ord s f : (forall g, Permutation (ord g) g) -> IntReach I h fits s ->
  (forall i, IntIn h s i -> it_in I (f i) /\ fits (f i)) ->
  exists r, is_map I h ord s f = Ok r /\ IntAnswers I h r (fun i => exists j, IntIn h s j /\ f j = i).
Proof.
  intros Ho H Hf. apply reach_isok in H. destruct (is_map_ok I h HI ord s f Ho H) as (r & E1 & Hr & Hm).
  { intros i Hi. apply Hf. apply IntIn_member; auto. }
  exists r. split; auto. apply answers; auto. intros i. rewrite Hm.
  split; intros (j & Hj & Ej); exists j; split; auto; apply (IntIn_member s j H); auto.
Qed.

Lemma c30_isSubsetOf s t : IntReach I h fits s -> IntReach I h fits t ->
  exists b, is_isSubsetOf h s t = Ok b /\ (b = true <-> forall i, IntIn h s i -> IntIn h t i).
Proof.
  intros H H1. apply reach_isok in H. apply reach_isok in H1. destruct (is_isSubsetOf_ok I h s t H H1) as (b & E1 & Hb).
  exists b. split; auto. rewrite Hb. split; intros Q i Hi.
  - apply (IntIn_member t i H1). apply Q. apply (IntIn_member s i H). auto.
  - apply (IntIn_member t i H1). apply Q. apply (IntIn_member s i H). auto.
Qed.

Lemma c30_equal s t : IntReach I h fits s -> IntReach I h fits t ->
  exists b, is_equal h s t = Ok b /\ is_same h s (Some t) = Ok b /\ is_same h s None = Ok false /\ (b = true <-> forall i, IntIn h s i <-> IntIn h t i).
Proof.
  intros H H1. apply reach_isok in H. apply reach_isok in H1. destruct (is_equal_ok I h s t H H1) as (b & E1 & Hb).
  exists b. split; auto. split; auto. split; auto. rewrite Hb. split.
  - intros Q i. rewrite (IntIn_member s i H), (IntIn_member t i H1), Q. tauto.
  - intros Q i. apply eq_true_iff_eq. rewrite <- (IntIn_member s i H), <- (IntIn_member t i H1). auto.
Qed.

Lemma c30_hash s t seed : IntReach I h fits s -> IntReach I h fits t -> (forall i, IntIn h s i <-> IntIn h t i) ->
  exists v, is_hash I h s seed = Ok v /\ is_hash I h t seed = Ok v.
Proof.
  intros H H1 Q. apply reach_isok in H. apply reach_isok in H1. apply (is_hash_ok I h HI); auto.
  intros i. apply eq_true_iff_eq. rewrite <- (IntIn_member s i H), <- (IntIn_member t i H1). auto.
Qed.

(** ** Unsigned types: no restriction on the integers. *)

Lemma unsigned_fits i : it_signed I = false -> it_in I i -> fits i.
Proof. intros Hu Hi. left. unfold it_in, it_min in Hi. rewrite Hu in Hi. lia. Qed.

Lemma reach_unsigned s : it_signed I = false -> IntReach I h (fun _ => True) s -> IntReach I h fits s.
Proof.
  intros Hu. induction 1.
  - constructor.
  - apply (ir_new I h fits ord l); auto. intros i Hi. destruct (H0 i Hi). split; auto. apply unsigned_fits; auto.
  - apply (ir_with I h fits s i); auto. apply unsigned_fits; auto.
  - apply (ir_without I h fits s i); auto.
  - apply (ir_where I h fits s pred); auto.
  - apply (ir_map I h fits ord s f); auto. intros i Hi. destruct (H1 i Hi). split; auto. apply unsigned_fits; auto.
  - apply (ir_intersection I h fits s t); auto.
  - apply (ir_union I h fits s t); auto.
Qed.

(** All of IntSet for the unsigned types. *)
Lemma c30_unsigned s t i l ord pred f seed :
  it_signed I = false -> IntReach I h (fun _ => True) s -> IntReach I h (fun _ => True) t -> it_in I i ->
  (forall j, In j l -> it_in I j) -> (forall g, Permutation (ord g) g) -> (forall j, it_in I j -> it_in I (f j)) ->
  IntAnswers I h s (IntIn h s) /\
  (exists r, is_new h ord l = Ok r /\ IntAnswers I h r (fun j => In j l)) /\
  (exists r, is_with h s i = Ok r /\ IntAnswers I h r (fun j => j = i \/ IntIn h s j)) /\
  (exists r, is_without h s i = Ok r /\ IntAnswers I h r (fun j => j <> i /\ IntIn h s j)) /\
  (exists r, is_union h s t = Ok r /\ IntAnswers I h r (fun j => IntIn h s j \/ IntIn h t j)) /\
  (exists r, is_intersection h s t = Ok r /\ IntAnswers I h r (fun j => IntIn h s j /\ IntIn h t j)) /\
  (exists r, is_where I h s pred = Ok r /\ IntAnswers I h r (fun j => IntIn h s j /\ pred j = true)) /\
  (exists r, is_map I h ord s f = Ok r /\ IntAnswers I h r (fun j => exists k, IntIn h s k /\ f k = j)) /\
  (exists b, is_isSubsetOf h s t = Ok b /\ (b = true <-> forall j, IntIn h s j -> IntIn h t j)) /\
  (exists b, is_equal h s t = Ok b /\ is_same h s (Some t) = Ok b /\ is_same h s None = Ok false /\ (b = true <-> forall j, IntIn h s j <-> IntIn h t j)) /\
  ((forall j, IntIn h s j <-> IntIn h t j) -> exists v, is_hash I h s seed = Ok v /\ is_hash I h t seed = Ok v).
Proof.
  intros Hu Hs Ht Hi Hl Ho Hf. apply (reach_unsigned s Hu) in Hs. apply (reach_unsigned t Hu) in Ht.
  pose proof (fun j => unsigned_fits j Hu) as Hfit.
  split; [apply c30_reads; auto|]. split; [apply c30_new; auto|]. split; [apply c30_with; auto|].
  split; [apply c30_without; auto|]. split; [apply c30_union; auto|]. split; [apply c30_intersection; auto|].
  split; [apply c30_where; auto|]. split.
  { apply c30_map; auto. intros j Hj. apply (IntIn_member s j (reach_isok s Hs)) in Hj.
    apply (member_fits I h s j (reach_isok s Hs)) in Hj. split; [|apply Hfit]; apply Hf; tauto. }
  split; [apply c30_isSubsetOf; auto|]. split; [apply c30_equal; auto|]. intros Q. apply c30_hash; auto.
Qed.

(** ** Signed types: negative integers that are not multiples of 64 break the set. *)

(** With(i) does not add such an [i], yet it counts it, and the empty set becomes non-empty. *)
Lemma c30_negative s i : IntReach I h fits s -> it_in I i -> i < 0 -> i mod 64 <> 0 ->
  exists r, is_with h s i = Ok r /\ is_has h r i = Ok false /\ is_count r = is_count s + 1 /\ is_isEmpty r = false.
Proof.
  intros H Hr Hn Hm. apply reach_isok in H. unfold is_with. rewrite (is_locate_ok I h s i H). cbn [bind].
  assert (~ fits i) as Hf by (unfold fits; lia). destruct (fits_dec i) as [?|_]; [tauto|].
  rewrite N.land_0_r, N.lor_0_r. cbn [N.eqb].
  destruct (m_with_ok (KX := ifK h) (KO := ifKO h) (kok := anyKey) (is_data s) (i / 64) (cellAt h (is_data s) (i / 64)))
    as (d & E1 & Hd & Hk & _); [apply H|exact Logic.I|].
  change (isK h) with (ifK h). rewrite E1. cbn [bind]. eexists. split; [reflexivity|]. split; [|split; [reflexivity|]].
  - unfold is_has, is_locate. rewrite locate_unfit by auto. cbn [is_data].
    change (isK h) with (ifK h). rewrite (m_get_ok (KX := ifK h) (KO := ifKO h) (kok := anyKey)); [|auto|exact Logic.I]. cbn [bind].
    rewrite N.land_0_r. reflexivity.
  - unfold is_isEmpty. cbn [is_data]. rewrite (m_isEmpty_ok (KX := ifK h) (kok := anyKey)) by auto.
    specialize (Hk (i / 64) Logic.I). cbn [veq ifK intKey] in Hk. rewrite Z.eqb_refl in Hk.
    destruct (mel d); auto. discriminate.
Qed.
End SpecInt.
