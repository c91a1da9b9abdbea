(** * PropIntSet: IntSet against Set (C78).

    Generated by tools/genprops.py from SpecIntSet.v and tools/examples/PropIntSet.txt.
    Every theorem is followed by a case that meets its hypotheses. *)
From Coq Require Import Sorting.Permutation.
From Verif Require Import Base Bits Env EnvFacts Node Iter Tree SetApi MapApi ExtraFacts IntSet IntFacts Reach Spec SpecInt SpecIntSet ExampleData PropInt.

(** Integers as elements of a Set, hashed by their last 12 bits. *)
#[local] Instance KI : Key Z := {| veq := Z.eqb; vhash := fun a seed => wrap 64 (seed * 31 + Z.to_N (a mod 4096)) |}.
Lemma KI_any : KeyOk KI anyZ.
Proof.
  constructor; cbn; intros.
  - apply Z.eqb_refl.
  - rewrite Z.eqb_sym. auto.
  - rewrite Z.eqb_eq in *. congruence.
  - rewrite Z.eqb_eq in *. congruence.
  - apply wrap_lt.
Qed.
#[local] Instance KI_ok I : KeyOk KI (it_in I).
Proof. destruct KI_any as [H1 H2 H3 H4 H5]. constructor; intros; eauto; [apply H1|apply H2|eapply H3|apply H4|apply H5]; eauto; exact Logic.I. Qed.
Lemma KI_exact I a b : it_in I a -> it_in I b -> @veq Z KI a b = true -> a = b.
Proof. intros _ _ H. apply Z.eqb_eq. exact H. Qed.
(** NewIntSet(listA...).With(201).Without(63).Union(NewIntSet(listB...)).Where(even).Map(halve); negative integers in it are multiples of 64. *)
Definition progA : iexp := IMap (fun i => Z.abs i / 2)%Z (IWhere Z.even (IUnion (IWithout 63 (IWith 201 (INew listA))) (INew listB))).
Lemma halve_in i : it_in tInt i -> it_in tInt (Z.abs i / 2)%Z /\ fits (Z.abs i / 2)%Z.
Proof.
  unfold it_in, it_min, fits. cbn [it_signed it_width tInt]. intros H. assert (0 <= Z.abs i / 2)%Z by (apply Z.div_pos; lia).
  assert (Z.abs i / 2 <= Z.abs i)%Z by (apply Z.div_le_upper_bound; lia). assert (2 * (Z.abs i / 2) <= Z.abs i)%Z by (apply Z.mul_div_le; lia). lia.
Qed.
Lemma in63 : it_in tInt 63. Proof. inInt. Qed.
Lemma progA_fine : IntFine tInt fits progA.
Proof. exact (conj halve_in (conj (conj in63 (conj in201 (conj fits201 listA_ok))) listB_ok)). Qed.
Definition tA : set Z := Eval vm_compute in okOr s_empty (zrun progA).
Lemma tA_run : zrun progA = Ok tA. Proof. vm_compute. reflexivity. Qed.
(** Two of its integers. *)
Definition progB : iexp := IWithout 500 (IInter (INew [0; 100; 500; 7]%Z) (IUnion progA (INew [500; 9]%Z))).
Lemma small_ok l : forallb (fun i => (0 <=? i) && (i <? 1000))%Z l = true -> forall i, In i l -> it_in tInt i /\ fits i.
Proof.
  intros H i Hi. rewrite forallb_forall in H. specialize (H i Hi). apply andb_prop in H as [H1 H2]. apply Z.leb_le in H1. apply Z.ltb_lt in H2.
  unfold it_in, it_min, fits. cbn [it_signed it_width tInt]. lia.
Qed.
Lemma in500 : it_in tInt 500. Proof. inInt. Qed.
Lemma progB_fine : IntFine tInt fits progB.
Proof. refine (conj in500 (conj _ (conj progA_fine _))); apply small_ok; reflexivity. Qed.
Definition tB : set Z := Eval vm_compute in okOr s_empty (zrun progB).
Lemma tB_run : zrun progB = Ok tB. Proof. vm_compute. reflexivity. Qed.
(** uint8 values, with 255. *)
Definition progU : iexp := IWith 255 (IUnion (INew [0; 64; 200]%Z) (INew [64; 128; 3]%Z)).
Lemma progU_fine : IntFine tUint8 (fun _ => True) progU.
Proof.
  assert (H : forall l, forallb (fun i => (0 <=? i) && (i <? 256))%Z l = true -> forall i, In i l -> it_in tUint8 i /\ True).
  { intros l H i Hi. split; [|exact Logic.I]. rewrite forallb_forall in H. specialize (H i Hi). apply andb_prop in H as [H1 H2]. apply Z.leb_le in H1. apply Z.ltb_lt in H2.
    unfold it_in, it_min. cbn [it_signed it_width tUint8]. lia. }
  refine (conj _ (conj Logic.I (conj _ _))); [inInt| |]; apply H; reflexivity.
Qed.
Definition tU : set Z := Eval vm_compute in okOr s_empty (zrun progU).
Lemma tU_run : zrun progU = Ok tU. Proof. vm_compute. reflexivity. Qed.
Lemma inM1 : it_in tInt (-1). Proof. inInt. Qed.

Local Open Scope Z_scope.

Theorem C78_agree_partial : forall {E : Env} {HE : EnvOk E} {I : intTy} {h : Z -> N -> N} {HI : it_ok I} {K : Key Z} {KO : KeyOk K (it_in I)}
    ord e t,
  (forall g, Permutation (ord g) g) -> IntExact I K -> IntFine I fits e -> zrun e = Ok t ->
  exists s, irun I h ord e = Ok s /\ (forall i, it_in I i -> is_has h s i = s_has t i) /\ is_count s = s_count t /\ is_isEmpty s = s_isEmpty t /\
    exists l l', is_elements I s = Ok l /\ s_elements t = Ok l' /\ Permutation l l'.
Proof. exact @c78_agree. Qed.
Print Assumptions C78_agree_partial.
Example C78_agree_case := C78_agree_partial (I := tInt) (h := hZ) (HI := tInt_ok) ordI progA tA ordI_ok (KI_exact _) progA_fine tA_run.
Example C78_agree_run : ((s <- irun tInt hZ ordI progA ;; is_elements tInt s), s_elements tA) =
  (Ok [0; 32; 4611686018427387904; 500; 64; 100]%Z, Ok [0; 4611686018427387904; 32; 64; 100; 500]%Z).
Proof. vm_compute. reflexivity. Qed.

Theorem C78_compare_partial : forall {E : Env} {HE : EnvOk E} {I : intTy} {h : Z -> N -> N} {HI : it_ok I} {K : Key Z} {KO : KeyOk K (it_in I)}
    ord e1 e2 t1 t2,
  (forall g, Permutation (ord g) g) -> IntExact I K -> IntFine I fits e1 -> IntFine I fits e2 -> zrun e1 = Ok t1 -> zrun e2 = Ok t2 ->
  exists s1 s2, irun I h ord e1 = Ok s1 /\ irun I h ord e2 = Ok s2 /\ is_equal h s1 s2 = s_equal t1 t2 /\ is_isSubsetOf h s1 s2 = s_isSubsetOf t1 t2.
Proof. exact @c78_compare. Qed.
Print Assumptions C78_compare_partial.
Example C78_compare_case := C78_compare_partial (I := tInt) (h := hZ) (HI := tInt_ok) ordI progB progA tB tA ordI_ok (KI_exact _) progB_fine progA_fine tB_run tA_run.
Example C78_compare_run : ((a <- irun tInt hZ ordI progB ;; b <- irun tInt hZ ordI progA ;; x <- is_isSubsetOf hZ a b ;; y <- is_equal hZ a b ;; Ok (x, y)), s_elements tB, s_isSubsetOf tB tA, s_equal tB tA) = (Ok (true, false), Ok [0; 100]%Z, Ok true, Ok false).
Proof. vm_compute. reflexivity. Qed.

Theorem C78_total_partial : forall {E : Env} {HE : EnvOk E} {I : intTy} {h : Z -> N -> N} {HI : it_ok I} {K : Key Z} {KO : KeyOk K (it_in I)}
    ord e,
  (forall g, Permutation (ord g) g) -> IntExact I K -> IntFine I fits e -> exists s, irun I h ord e = Ok s.
Proof. exact @c78_total. Qed.
Print Assumptions C78_total_partial.
Example C78_total_case := C78_total_partial (I := tInt) (h := hZ) (HI := tInt_ok) ordI progA ordI_ok (KI_exact _) progA_fine.

Theorem C78_unsigned : forall {E : Env} {HE : EnvOk E} {I : intTy} {h : Z -> N -> N} {HI : it_ok I} {K : Key Z} {KO : KeyOk K (it_in I)}
    ord e t,
  (forall g, Permutation (ord g) g) -> IntExact I K -> it_signed I = false -> IntFine I (fun _ => True) e -> zrun e = Ok t ->
  exists s, irun I h ord e = Ok s /\ (forall i, it_in I i -> is_has h s i = s_has t i) /\ is_count s = s_count t /\ is_isEmpty s = s_isEmpty t /\
    exists l l', is_elements I s = Ok l /\ s_elements t = Ok l' /\ Permutation l l'.
Proof. exact @c78_unsigned. Qed.
Print Assumptions C78_unsigned.
Example C78_unsigned_case := C78_unsigned (I := tUint8) (h := hZ) (HI := tUint8_ok) ordI progU tU ordI_ok (KI_exact _) eq_refl progU_fine tU_run.
Example C78_unsigned_run : ((s <- irun tUint8 hZ ordI progU ;; is_elements tUint8 s), s_elements tU) = (Ok [200; 255; 0; 3; 64; 128]%Z, Ok [0; 3; 64; 128; 200; 255]%Z).
Proof. vm_compute. reflexivity. Qed.

Theorem C78_refuted : forall {E : Env} {HE : EnvOk E} {I : intTy} {h : Z -> N -> N} {HI : it_ok I} {K : Key Z} {KO : KeyOk K (it_in I)}
    ord,
  it_in I (-1) -> exists s t, irun I h ord (IWith (-1) IEmpty) = Ok s /\ zrun (IWith (-1) IEmpty) = Ok t /\
  is_has h s (-1) = Ok false /\ s_has t (-1) = Ok true.
Proof. exact @c78_refuted. Qed.
Print Assumptions C78_refuted.
Example C78_refuted_case := C78_refuted (I := tInt) (h := hZ) (HI := tInt_ok) ordI inM1.
