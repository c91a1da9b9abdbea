(** * PropHasher: the text of a hasher (C60).

    Generated by tools/genprops.py from SpecHasher.v and tools/examples/PropHasher.txt.
    Every theorem is followed by a case that meets its hypotheses. *)
From Verif Require Import Base Bits Env EnvFacts HasherText SpecHasher ExampleData.

Local Open Scope N_scope.

Theorem C60_text_partial : forall {E : Env} fuel h,
  env_build = branch8 -> h < 2 ^ 64 ->
  exists l, hs_string (S fuel) h = Ok (35 :: l) /\ (length l <= 11)%nat /\
    (forall j, (j < length l)%nat -> nth j l 0 = 0x2800 + N.of_nat (h_hash (Nat.iter (2 * j) h_next h)) + 8 * N.of_nat (h_hash (Nat.iter (2 * j + 1) h_next h))) /\
    Nat.iter (2 * length l) h_next h = 0.
Proof. exact @c60_text. Qed.
Print Assumptions C60_text_partial.
Lemma small h : (h <? 2 ^ 64) = true -> h < 2 ^ 64.
Proof. apply N.ltb_lt. Qed.
Example C60_text_case := C60_text_partial (E := E0) 0 0xF000000000000001 eq_refl (small 0xF000000000000001 eq_refl).
Example C60_text_run : (hs_string 1 0xF000000000000001, hs_string 1 0x2000000000000000, hs_string 1 0) =
  (Ok [35; 10279; 10240; 10240; 10240; 10240; 10240; 10240; 10240; 10240; 10240; 10272], Ok [35; 10241], Ok [35]).
Proof. vm_compute. reflexivity. Qed.

Theorem C60_injective_partial : forall {E : Env} fuel a b,
  env_build = branch8 -> a < 2 ^ 64 -> b < 2 ^ 64 ->
  hs_string (S fuel) a = hs_string (S fuel) b -> a = b.
Proof. exact @c60_injective. Qed.
Print Assumptions C60_injective_partial.
Example C60_injective_case : hs_string 1 0xF000000000000001 <> hs_string 1 0xF000000000000000.
Proof. intros H. apply (C60_injective_partial (E := E0) 0 _ _ eq_refl (small 0xF000000000000001 eq_refl) (small 0xF000000000000000 eq_refl)) in H. discriminate. Qed.

Theorem C60_recurs : forall {E : Env},
  env_build <> branch8 -> forall fuel h, hs_string fuel h = Fuel.
Proof. exact @c60_recurs. Qed.
Print Assumptions C60_recurs.
Lemma E4_build : @env_build E4 <> branch8. Proof. discriminate. Qed.
Example C60_recurs_case : hs_string (E := E4) 1000 5 = Fuel := C60_recurs (E := E4) E4_build 1000 5.
Example C60_recurs_run : (hs_string (E := E4) 50 0, hs_string (E := E0) 50 0) = (Fuel, Ok [35]).
Proof. vm_compute. reflexivity. Qed.

Theorem C60_masker : forall m,
  mk_string m = Panic.
Proof. exact @c60_masker. Qed.
Print Assumptions C60_masker.
Example C60_masker_case : mk_string 5 = Panic := C60_masker 5.

(** In the builds with two bits per digit String does not return. *)
Theorem C60_refuted : ~ (forall (E : Env) h, h < 2 ^ 64 -> exists fuel l, hs_string fuel h = Ok l).
Proof. intros H. destruct (H E4 5 eq_refl) as (fuel & l & Hl). rewrite (C60_recurs (E := E4) E4_build) in Hl. discriminate. Qed.
Print Assumptions C60_refuted.
