(** * SpecIntSet: IntSet against Set (C78). The same program run on an IntSet and on a Set of the same integers. *)
From Coq Require Import Permutation.
From Verif Require Import Base Bits Env EnvFacts Node NodeWf NodeBin NodeBin2 NodeUn Iter Tree TreeFacts SetApi SetFacts MapApi MapFacts ExtraFacts IntSet IntFacts Reach Spec SpecSet SpecInt.
Local Open Scope Z_scope.

(** Programs of the operations that both types have: NewIntSet and NewSet, With, Without, Union, Intersection, Where and Map
    (intset.go:30-43, 149-235; set.go:33-39, 195-259). *)
Inductive iexp :=
| IEmpty
| INew (l : list Z)
| IWith (i : Z) (a : iexp)
| IWithout (i : Z) (a : iexp)
| IUnion (a b : iexp)
| IInter (a b : iexp)
| IWhere (p : Z -> bool) (a : iexp)
| IMap (f : Z -> Z) (a : iexp).

(** All integers in the program are of the type and satisfy [ok]. *)
Fixpoint IntFine (I : intTy) (ok : Z -> Prop) (e : iexp) : Prop :=
  match e with
  | IEmpty => True
  | INew l => forall i, In i l -> it_in I i /\ ok i
  | IWith i a => it_in I i /\ ok i /\ IntFine I ok a
  | IWithout i a => it_in I i /\ IntFine I ok a
  | IUnion a b | IInter a b => IntFine I ok a /\ IntFine I ok b
  | IWhere _ a => IntFine I ok a
  | IMap f a => (forall i, it_in I i -> it_in I (f i) /\ ok (f i)) /\ IntFine I ok a
  end.

Section IntAndSet.
Local Opaque maxTreeDepth fanout fb ctz popcount one_bits strip_low.
Context {E : Env} {HE : EnvOk E} (I : intTy) (h : Z -> N -> N) (HI : it_ok I) (ord : list (Z * N) -> list (Z * N)) (Hord : forall g, Permutation (ord g) g).
Context {K : Key Z} {KO : KeyOk K (it_in I)} (HK : forall a b, it_in I a -> it_in I b -> veq a b = true -> a = b).

(** The program with the operations of intset.go; [ord] is the order in which NewIntSet's Go map is listed. *)
Fixpoint irun (e : iexp) : res intSet :=
  match e with
  | IEmpty => Ok is_empty
  | INew l => is_new h ord l
  | IWith i a => s <- irun a ;; is_with h s i
  | IWithout i a => s <- irun a ;; is_without h s i
  | IUnion a b => s <- irun a ;; t <- irun b ;; is_union h s t
  | IInter a b => s <- irun a ;; t <- irun b ;; is_intersection h s t
  | IWhere p a => s <- irun a ;; is_where I h s p
  | IMap f a => s <- irun a ;; is_map I h ord s f
  end.
(** The program with the operations of set.go. *)
Fixpoint zrun (e : iexp) : res (set Z) :=
  match e with
  | IEmpty => Ok s_empty
  | INew l => s_new l
  | IWith i a => s <- zrun a ;; s_with s i
  | IWithout i a => s <- zrun a ;; s_without s i
  | IUnion a b => s <- zrun a ;; t <- zrun b ;; s_union s t
  | IInter a b => s <- zrun a ;; t <- zrun b ;; s_intersection s t
  | IWhere p a => s <- zrun a ;; s_where s p
  | IMap f a => s <- zrun a ;; s_map s f
  end.

(** The two sets have the same integers. *)
Definition Agree (s : intSet) (t : set Z) : Prop := forall i, it_in I i -> IntIn h s i <-> Has t i.

Lemma answers_in s P i : IntAnswers I h s P -> it_in I i -> IntIn h s i <-> P i.
Proof. intros HA Hi. destruct (ia_has I h s P HA i Hi) as (b & E1 & Hb). unfold IntIn. rewrite E1. rewrite <- Hb. split; congruence. Qed.
Lemma answers_set t (P : Z -> Prop) i : Answers (it_in I) t P -> it_in I i -> Has t i <-> P i.
Proof. intros [HA _] Hi. destruct (HA i Hi) as (b & E1 & Hb). unfold Has. rewrite E1. rewrite <- Hb. split; congruence. Qed.
Lemma in_range s i : IntReach I h fits s -> IntIn h s i -> it_in I i.
Proof. intros Hs Hi. apply (reach_isok I h HI) in Hs. apply (IntIn_member I h s i Hs) in Hi. apply (member_fits I h s i); auto. Qed.
Lemma veq_same a : it_in I a -> veq a a = true. Proof. apply veq_refl. Qed.
Lemma veq_iff a b : it_in I a -> it_in I b -> veq a b = true <-> a = b.
Proof. intros Ha Hb. split; auto. intros ->. apply veq_refl. auto. Qed.

(** Running: the IntSet never panics, and where the Set does not either they agree. *)
Lemma run_agree e : IntFine I fits e ->
  exists s, irun e = Ok s /\ IntReach I h fits s /\
    (zrun e = Panic \/ exists t, zrun e = Ok t /\ SetReach (it_in I) t /\ Agree s t).
Proof.
  induction e as [|l|i a IH|i a IH|a IHa b IHb|a IHa b IHb|p a IH|f a IH]; cbn [IntFine irun zrun]; intros HF.
  - exists is_empty. split; auto. split; [constructor|]. right. exists s_empty. split; auto. split; [constructor|].
    intros i Hi. rewrite (answers_in _ _ i (c30_empty I h HI) Hi). split; [tauto|]. intros H.
    exact (proj1 (proj1 (proj2 (c03_count s_empty (sr_empty Z K (it_in I))))) eq_refl i Hi H).
  - destruct (c30_new I h HI ord l Hord HF) as (s & Es & As). exists s. split; auto. split; [apply (ir_new I h fits ord l); auto|]. right.
    destruct (c16_newSet (vok := it_in I) l) as (t & Et & At & _); [intros v Hv; apply HF; auto|]. exists t. split; auto.
    split; [apply (sr_new _ _ _ l); auto; intros v Hv; apply HF; auto|]. intros i Hi. rewrite (answers_in s _ i As Hi), (answers_set t _ i At Hi). split.
    + intros H. exists i. split; auto. apply veq_refl; auto.
    + intros (v & Hv & Hq). apply HK in Hq; auto; [congruence|apply HF; auto].
  - destruct HF as (Hi & Hf & HF). destruct (IH HF) as (s & -> & Rs & Ht). cbn [bind].
    destruct (c30_with I h HI s i Rs Hi Hf) as (r & Er & Ar). exists r. split; auto. split; [apply (ir_with I h fits s i); auto|].
    destruct Ht as [->|(t & -> & Rt & HA)]; [left; auto|]. right. cbn [bind]. destruct (c01_with t i Rt Hi) as (u & Eu & Au & _). exists u. split; auto.
    split; [apply (sr_with _ _ _ t i); auto|]. intros j Hj. rewrite (answers_in r _ j Ar Hj), (answers_set u _ j Au Hj), (HA j Hj), veq_iff by auto. intuition.
  - destruct HF as (Hi & HF). destruct (IH HF) as (s & -> & Rs & Ht). cbn [bind].
    destruct (c30_without I h HI s i Rs Hi) as (r & Er & Ar). exists r. split; auto. split; [apply (ir_without I h fits s i); auto|].
    destruct Ht as [->|(t & -> & Rt & HA)]; [left; auto|]. right. cbn [bind]. destruct (c01_without t i Rt Hi) as (u & Eu & Au & _). exists u. split; auto.
    split; [apply (sr_without _ _ _ t i); auto|]. intros j Hj. rewrite (answers_in r _ j Ar Hj), (answers_set u _ j Au Hj), (HA j Hj).
    rewrite <- not_true_iff_false, veq_iff by auto. intuition.
  - destruct HF as [Fa Fb]. destruct (IHa Fa) as (s & -> & Rs & Hs). destruct (IHb Fb) as (s' & -> & Rs' & Hs'). cbn [bind].
    destruct (c30_union I h HI s s' Rs Rs') as (r & Er & Ar). exists r. split; auto. split; [apply (ir_union I h fits s s'); auto|].
    destruct Hs as [->|(t & -> & Rt & HA)]; [left; auto|]. cbn [bind]. destruct Hs' as [->|(t' & -> & Rt' & HA')]; [left; auto|]. cbn [bind].
    destruct (s_union_ok (vok := it_in I) t t') as [[_ Eu]|(_ & u & Eu & _)]; [apply sreach_ok; auto|apply sreach_ok; auto|left; auto|]. right.
    destruct (c02_union t t' u Rt Rt' Eu) as [Au _]. exists u. split; auto. split; [apply (sr_union _ _ _ t t'); auto|].
    intros j Hj. rewrite (answers_in r _ j Ar Hj), (answers_set u _ j Au Hj), (HA j Hj), (HA' j Hj). tauto.
  - destruct HF as [Fa Fb]. destruct (IHa Fa) as (s & -> & Rs & Hs). destruct (IHb Fb) as (s' & -> & Rs' & Hs'). cbn [bind].
    destruct (c30_intersection I h HI s s' Rs Rs') as (r & Er & Ar). exists r. split; auto. split; [apply (ir_intersection I h fits s s'); auto|].
    destruct Hs as [->|(t & -> & Rt & HA)]; [left; auto|]. cbn [bind]. destruct Hs' as [->|(t' & -> & Rt' & HA')]; [left; auto|]. cbn [bind]. right.
    destruct (c02_intersection t t' Rt Rt') as (u & Eu & Au & _). exists u. split; auto. split; [apply (sr_intersection _ _ _ t t'); auto|].
    intros j Hj. rewrite (answers_in r _ j Ar Hj), (answers_set u _ j Au Hj), (HA j Hj), (HA' j Hj). tauto.
  - destruct (IH HF) as (s & -> & Rs & Ht). cbn [bind].
    destruct (c30_where I h HI s p Rs) as (r & Er & Ar). exists r. split; auto. split; [apply (ir_where I h fits s p); auto|].
    destruct Ht as [->|(t & -> & Rt & HA)]; [left; auto|]. right. cbn [bind]. destruct (c08_comprehension t p Rt) as (u & Eu & Au).
    { intros x y Hx Hy Hq. f_equal. auto. }
    exists u. split; auto. split; [apply (sr_where _ _ _ t p); auto|]. intros j Hj. rewrite (answers_in r _ j Ar Hj), (answers_set u _ j Au Hj), (HA j Hj). tauto.
  - destruct HF as [Hf HF]. destruct (IH HF) as (s & -> & Rs & Ht). cbn [bind].
    destruct (c30_map I h HI ord s f Hord Rs) as (r & Er & Ar); [intros i Hi; apply Hf; apply (in_range s); auto|].
    exists r. split; auto. split; [apply (ir_map I h fits ord s f); auto|].
    destruct Ht as [->|(t & -> & Rt & HA)]; [left; auto|]. right. cbn [bind].
    assert (Hh : forall x, Holds t x -> it_in I x) by (intros x Hx; apply (holds_ok (vok := it_in I) t x); auto; apply sreach_ok; auto).
    destruct (c09_map (uok := it_in I) t f Rt) as (u & Eu & Au & _); [intros x Hx; apply Hf; auto|].
    exists u. split; auto. split; [apply (sr_map Z K (it_in I) Z K (it_in I) t f u); auto; intros v Hv; apply Hf; auto|].
    intros j Hj. rewrite (answers_in r _ j Ar Hj), (answers_set u _ j Au Hj). split.
    + intros (x & Hx & <-). pose proof (in_range s x Rs Hx) as Hxi. apply (HA x Hxi) in Hx. destruct (c01_has t x Rt Hxi) as (b & Eb & Hb). unfold Has in Hx.
      assert (b = true) as -> by congruence. destruct (proj1 Hb eq_refl) as (y & Hy & Hq). apply HK in Hq; auto. subst y. exists x. split; auto. apply veq_refl; auto.
    + intros (x & Hx & Hq). apply HK in Hq; auto; [|apply Hf; auto]. exists x. split; auto. apply (HA x (Hh x Hx)). destruct (c01_has t x Rt (Hh x Hx)) as (b & Eb & Hb).
      unfold Has. rewrite Eb. f_equal. apply Hb. exists x. split; auto. apply veq_refl; auto.
Qed.

End IntAndSet.

(** Any order [ord] of the listing of Go maps, and any equality that is that of integers. *)
Definition IntExact (I : intTy) (K : Key Z) : Prop := forall a b, it_in I a -> it_in I b -> @veq Z K a b = true -> a = b.

Section Asked.
Local Opaque maxTreeDepth fanout fb ctz popcount one_bits strip_low.
Context {E : Env} {HE : EnvOk E} (I : intTy) (h : Z -> N -> N) (HI : it_ok I) {K : Key Z} {KO : KeyOk K (it_in I)}.

(** What the two can be asked: Has, Count and IsEmpty have the same answers, and Elements the same integers. *)
Lemma c78_agree ord e t : (forall g, Permutation (ord g) g) -> IntExact I K -> IntFine I fits e -> zrun e = Ok t ->
  exists s, irun I h ord e = Ok s /\ (forall i, it_in I i -> is_has h s i = s_has t i) /\ is_count s = s_count t /\ is_isEmpty s = s_isEmpty t /\
    exists l l', is_elements I s = Ok l /\ s_elements t = Ok l' /\ Permutation l l'.
Proof.
  intros Hord HK HF Et. destruct (run_agree I h HI ord Hord HK e HF) as (s & Es & Rs & [Ep|(t' & Et' & Rt & HA)]); [congruence|]. assert (t' = t) as -> by congruence.
  exists s. split; auto. pose proof (c30_reads I h HI s Rs) as As. destruct (c03_count t Rt) as (At & _ & Hz).
  destruct (ia_elements I h s _ As) as (l & El & Nl & Hl & _ & Cl). destruct At as [Hh (l' & El' & (O' & U' & H') & Cl')].
  assert (Hin : forall i, In i l <-> In i l').
  { intros i. rewrite Hl. split.
    - intros Hi. pose proof (in_range I h HI s i Rs Hi) as Hii. apply (HA i Hii) in Hi. apply H' in Hi as (x & Hx & Hq); auto. apply HK in Hq; auto. congruence.
    - intros Hi. apply (HA i (O' i Hi)). apply H'; auto. exists i. split; auto. apply veq_refl; auto. }
  assert (Nl' : NoDup l').
  { apply NoDup_nth_error. intros i j Hi Heq. destruct (Nat.eq_dec i j) as [->|Hn]; auto. exfalso.
    destruct (nth_error l' i) as [x|] eqn:Ex; [|apply nth_error_None in Ex; lia]. symmetry in Heq.
    pose proof (U' i j x x Ex Heq Hn) as Hf. rewrite veq_refl in Hf; [discriminate|]. apply O'. apply nth_error_In in Ex. auto. }
  assert (HP : Permutation l l') by (apply NoDup_Permutation; auto).
  assert (Hc : is_count s = s_count t) by (rewrite Cl, Cl', (Permutation_length HP); auto).
  split; [|split; [|split]]; auto.
  - intros i Hi. destruct (ia_has I h s _ As i Hi) as (b & -> & Hb). destruct (Hh i Hi) as (b' & -> & Hb'). f_equal.
    apply eq_true_iff_eq. rewrite Hb, Hb'. auto.
  - apply eq_true_iff_eq. rewrite Hz. rewrite (ia_isEmpty I h s _ As). rewrite <- Hc, Cl. split.
    + intros H. destruct l as [|x l]; auto. exfalso. apply (H x). apply Hl. left. auto.
    + intros H i Hi. apply Hl in Hi. destruct l; [destruct Hi|discriminate].
  - exists l, l'. auto.
Qed.

(** And of two such results: Equal and IsSubsetOf. *)
Lemma c78_compare ord e1 e2 t1 t2 : (forall g, Permutation (ord g) g) -> IntExact I K -> IntFine I fits e1 -> IntFine I fits e2 -> zrun e1 = Ok t1 -> zrun e2 = Ok t2 ->
  exists s1 s2, irun I h ord e1 = Ok s1 /\ irun I h ord e2 = Ok s2 /\ is_equal h s1 s2 = s_equal t1 t2 /\ is_isSubsetOf h s1 s2 = s_isSubsetOf t1 t2.
Proof.
  intros Hord HK F1 F2 E1 E2. destruct (run_agree I h HI ord Hord HK e1 F1) as (s1 & Es1 & Rs1 & [Ep|(t' & Et' & Rt1 & HA1)]); [congruence|]. assert (t' = t1) as -> by congruence.
  destruct (run_agree I h HI ord Hord HK e2 F2) as (s2 & Es2 & Rs2 & [Ep|(t' & Et2 & Rt2 & HA2)]); [congruence|]. assert (t' = t2) as -> by congruence.
  exists s1, s2. split; auto. split; auto. split.
  - destruct (c30_equal I h HI s1 s2 Rs1 Rs2) as (b & -> & _ & _ & Hb). destruct (c05_equal t1 t2 Rt1 Rt2) as (b' & -> & Hb'). f_equal.
    apply eq_true_iff_eq. rewrite Hb, Hb'. split.
    + intros H i Hi. rewrite <- (HA1 i Hi), <- (HA2 i Hi). auto.
    + intros H i. split; intros Hi.
      * pose proof (in_range I h HI s1 i Rs1 Hi) as Hr. apply (HA2 i Hr), H, (HA1 i Hr); auto.
      * pose proof (in_range I h HI s2 i Rs2 Hi) as Hr. apply (HA1 i Hr), H, (HA2 i Hr); auto.
  - destruct (c30_isSubsetOf I h HI s1 s2 Rs1 Rs2) as (b & -> & Hb). destruct (c06_isSubsetOf t1 t2 Rt1 Rt2) as (b' & -> & Hb'). f_equal.
    apply eq_true_iff_eq. rewrite Hb, Hb'. split.
    + intros H i Hi. rewrite <- (HA1 i Hi), <- (HA2 i Hi). auto.
    + intros H i Hi. pose proof (in_range I h HI s1 i Rs1 Hi) as Hr. apply (HA2 i Hr), H, (HA1 i Hr); auto.
Qed.

(** An IntSet program never panics, though the Set program can (C19). *)
Lemma c78_total ord e : (forall g, Permutation (ord g) g) -> IntExact I K -> IntFine I fits e -> exists s, irun I h ord e = Ok s.
Proof. intros Hord HK HF. destruct (run_agree I h HI ord Hord HK e HF) as (s & Es & _). eauto. Qed.

(** For unsigned types all integers fit. *)
Lemma c78_unsigned ord e t : (forall g, Permutation (ord g) g) -> IntExact I K -> it_signed I = false -> IntFine I (fun _ => True) e -> zrun e = Ok t ->
  exists s, irun I h ord e = Ok s /\ (forall i, it_in I i -> is_has h s i = s_has t i) /\ is_count s = s_count t /\ is_isEmpty s = s_isEmpty t /\
    exists l l', is_elements I s = Ok l /\ s_elements t = Ok l' /\ Permutation l l'.
Proof.
  intros Hord HK Hu HF. apply c78_agree; auto. assert (Hfit : forall i, it_in I i -> fits i) by (intros i; apply (unsigned_fits I); auto).
  clear - HF Hfit. induction e; cbn [IntFine] in *; try tauto.
  - intros i Hi. destruct (HF i Hi). auto.
  - destruct HF as (H1 & _ & H2). auto.
  - destruct HF as [H1 H2]. split; auto. intros i Hi. destruct (H1 i Hi). auto.
Qed.

(** For signed types they do not agree on negative integers (C30): after With(-1) only the Set has -1. *)
Lemma c78_refuted ord : it_in I (-1) -> exists s t, irun I h ord (IWith (-1) IEmpty) = Ok s /\ zrun (IWith (-1) IEmpty) = Ok t /\
  is_has h s (-1) = Ok false /\ s_has t (-1) = Ok true.
Proof.
  intros Hi. destruct (c30_negative I h HI is_empty (-1) (ir_empty I h fits) Hi) as (s & Es & Hs & _); [lia|discriminate|].
  destruct (c01_with s_empty (-1) (sr_empty Z K (it_in I)) Hi) as (t & Et & At & _). exists s, t. cbn [irun zrun bind]. do 3 (split; auto).
  apply (answers_set I t _ (-1) At Hi). left. apply veq_refl; auto.
Qed.

End Asked.
