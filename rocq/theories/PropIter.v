(** * PropIter: several iterators at once (C51).

    Generated by tools/genprops.py from SpecIter.v and tools/examples/PropIter.txt.
    Every theorem is followed by a case that meets its hypotheses. *)
From Verif Require Import Base Bits Env EnvFacts Node Iter Tree SetApi Reach Spec IterBuf SpecIter ExampleData.

(** Two iterators over one set and one over another; Value before the first Next and after the last, Next after the end. *)
Definition prog : list (@iop Z) :=
  [ORange sAB; OValue 0; ONext 0; OValue 0; ORange sAB; ONext 1; ONext 0; OValue 0; OValue 1; ORange sC] ++
  concat (repeat [ONext 1; OValue 1; ONext 0; OValue 0; ONext 2; OValue 2] 14) ++ [ONext 3; OValue 3].
Lemma prog_reach s : ranged prog s -> SetReach anyZ s.
Proof.
  unfold ranged. intros H.
  assert (HA : s = sAB \/ s = sC).
  { vm_compute in H. repeat (destruct H as [H|H]; [first [discriminate H|injection H as <-; first [left; reflexivity|right; reflexivity]]|]). destruct H. }
  destruct HA as [->| ->]; [exact sAB_reach|exact sC_reach].
Qed.
(** Capacities: as computed by packedIteratorBuf at first, then exact. *)
Definition tight (a : nat) : nat := 0.

Theorem C51_buffer : forall {E : Env} {T : Type}
    grow (ops : list (@iop T)),
  bexec grow ops [] [] = iexec ops [].
Proof. exact @c51_buffer. Qed.
Print Assumptions C51_buffer.
Example C51_buffer_case := C51_buffer tight prog.

Theorem C51_independent : forall {E : Env} {HE : EnvOk E} {T : Type} {K : Key T} {vok : T -> Prop} {KO : KeyOk K vok}
    grow (ops : list (@iop T)),
  (forall s, ranged ops s -> SetReach vok s) -> bexec grow ops [] [] = cexec ops [].
Proof. exact @c51_independent. Qed.
Print Assumptions C51_independent.
Example C51_independent_case := C51_independent tight prog prog_reach.
Example C51_independent_run : firstn 10 (bexec tight prog [] []) = [AMade; AValue Panic; ANext (Ok true); AValue (Ok 4%Z); AMade;
    ANext (Ok true); ANext (Ok true); AValue (Ok 1%Z); AValue (Ok 4%Z); AMade] /\
  s_elements sAB = Ok [4; 1; 5; 9; 102; 6; 203]%Z /\ length (bexec tight prog [] []) = 96%nat.
Proof. vm_compute. auto. Qed.
