(** * PropTest: helpers of the tests (C62, C63).

    Generated by tools/genprops.py from SpecTest.v and tools/examples/PropTest.txt.
    Every theorem is followed by a case that meets its hypotheses. *)
From Coq Require Import Sorting.Permutation.
From Verif Require Import Base Bits Env EnvFacts Node NodeWf NodeBin2 Iter Tree TreeFacts SetApi SetFacts MapApi Reach TestSupport SpecTest ExampleData.

(** Maps tried from the last index, and from the first. *)
Definition backward (n : nat) (l : list nat) : list nat := rev l.
Definition forward (n : nat) (l : list nat) : list nat := l.
Lemma backward_ok : pickOk backward.
Proof. intros n l. apply Permutation_sym, Permutation_rev. Qed.
(** Equality modulo 100, of which 99 is not equal to itself. *)
Definition deq (a b : Z) : bool := ((a mod 100 =? b mod 100) && negb (a mod 100 =? 99))%Z.
Lemma deq_sym a b : deq a b = true -> deq b a = true.
Proof. unfold deq. rewrite !andb_true_iff, !negb_true_iff, !Z.eqb_eq, !Z.eqb_neq. intros [H1 H2]. rewrite <- H1. auto. Qed.
Lemma deq_trans a b c : deq a b = true -> deq b c = true -> deq a c = true.
Proof. unfold deq. rewrite !andb_true_iff, !negb_true_iff, !Z.eqb_eq, !Z.eqb_neq. intros [H1 H2] [H3 H4]. split; congruence. Qed.

Theorem C62_slices : forall {A : Type} {deq : A -> A -> bool}
    pick (u v : list A),
  pickOk pick ->
  (forall a b, deq a b = true -> deq b a = true) -> (forall a b c, deq a b = true -> deq b c = true -> deq a c = true) ->
  sameSlices deq pick u v = true <-> sameUpTo deq u v.
Proof. exact @c62_slices. Qed.
Print Assumptions C62_slices.
Example C62_slices_case : sameUpTo deq [1; 2; 101; 5]%Z [5; 1; 102; 1]%Z.
Proof. apply (C62_slices (deq := deq) backward _ _ backward_ok deq_sym deq_trans). vm_compute. reflexivity. Qed.
Example C62_slices_run : (sameSlices deq forward [1; 2; 101; 5] [5; 1; 102; 1], sameSlices deq forward [1; 2; 2] [1; 2; 1], sameSlices deq backward [99] [99], sameSlices deq backward [1] [1; 1])%Z =
  (true, false, false, false).
Proof. vm_compute. reflexivity. Qed.

Theorem C62_strings_refuted : exists u v : list N, Permutation u v /\ sameStrings u v = Ok false.
Proof. exact @c62_strings_refuted. Qed.
Print Assumptions C62_strings_refuted.
(** "ab" and "ba" do not match; "ba" does not even match itself, and "a" and "b" do not match. *)
Example C62_strings_refuted_run : (sameStrings [98; 97] [97; 98], sameStrings [97; 98; 97] [97; 97; 98], sameStrings [97] [98])%N = (Ok false, Ok false, Ok false).
Proof. vm_compute. reflexivity. Qed.

Theorem C62_strings_panic : forall a b l, sameStrings (a :: b :: l) [] = Panic.
Proof. exact @c62_strings_panic. Qed.
Print Assumptions C62_strings_panic.
Example C62_strings_panic_case : sameStrings [97; 98; 99]%N [] = Panic := C62_strings_panic 97%N 98%N [99%N].

Theorem C62_strings_ascending_partial : forall (u : list N),
  (forall i x y, nth_error u i = Some x -> nth_error u (S i) = Some y -> (x <= y)%N) -> sameStrings u u = Ok true.
Proof. exact @c62_strings_ascending. Qed.
Print Assumptions C62_strings_ascending_partial.
Example C62_strings_ascending_case : sameStrings [97; 98; 98; 99]%N [97; 98; 98; 99]%N = Ok true.
Proof.
  apply C62_strings_ascending_partial. intros i x y. do 4 (destruct i as [|i]; [cbn; intros H1 H2; injection H1 as <-; try discriminate; injection H2 as <-; discriminate|]).
  cbn. destruct i; discriminate.
Qed.

Theorem C62_maps : forall {K V} (deq : V -> V -> bool) next (x y : list (K * V)),
  sameMaps deq next x y = true <-> x = [] /\ y = [].
Proof. exact @c62_maps. Qed.
Print Assumptions C62_maps.
Example C62_maps_case := C62_maps (K := Z) deq 7 [] [].
Example C62_maps_run : (sameMaps deq 7 [(1, 2)]%Z [(1, 2)]%Z, sameMaps (K := Z) deq 7 [] []) = (false, true).
Proof. vm_compute. reflexivity. Qed.

Theorem C62_maps_refuted : exists x : list (N * N), forall next, sameMaps N.eqb next x x = false.
Proof. exact @c62_maps_refuted. Qed.
Print Assumptions C62_maps_refuted.


Theorem C63_disabled : forall {Key : Type}
    (p : prog (Key := Key)),
  (forall k b, In (k, b) (fst (runDisabled p)) -> b = false) /\ forall t, snd (runDisabled p) <> Again t.
Proof. exact @c63_disabled. Qed.
Print Assumptions C63_disabled.
Definition failing : prog (Key := nat) := PMark 3%nat (fun b => if b then PEnd else PMark 4%nat (fun b => if b then PEnd else PReplay (Some 3%nat) PEnd)).
Example C63_disabled_case := C63_disabled failing.
Example C63_disabled_run : runDisabled failing = ([(3, false); (4, false)]%nat, Ended).
Proof. vm_compute. reflexivity. Qed.

Theorem C63_quiet : forall {Key : Type} {keq : Key -> Key -> bool}
    fuel p,
  quiet (Key := Key) p -> exists l o, replayable keq (S fuel) None None p = ([l], Some o).
Proof. exact @c63_quiet. Qed.
Print Assumptions C63_quiet.
Definition passing : prog (Key := nat) := PMark 3%nat (fun b => if b then PPanic else PEnd).
Lemma passing_quiet : quiet passing.
Proof. constructor. intros []; constructor. Qed.
Example C63_quiet_case := C63_quiet (keq := Nat.eqb) 5 passing passing_quiet.
Example C63_quiet_run : replayable Nat.eqb 6 None None passing = ([[(3%nat, false)]], Some Ended).
Proof. vm_compute. reflexivity. Qed.

Theorem C63_polite_partial : forall {Key : Type} {keq : Key -> Key -> bool}
    fuel p,
  (forall k, keq k k = true) -> polite [] p ->
  (exists l o, replayable keq (S (S fuel)) None None p = ([l], Some o)) \/
  (exists l k l' o, replayable keq (S (S fuel)) None None p = ([l; l'], Some o) /\ In (k, false) l /\ runOnce keq None None p = (l, Again (Some k)) /\ exists k', In (k', true) l' /\ keq k' k = true).
Proof. exact @c63_polite. Qed.
Print Assumptions C63_polite_partial.
Lemma failing_polite : polite [] failing.
Proof. repeat (apply polite_mark; [|constructor]). apply polite_replay. right. left. reflexivity. Qed.
Example C63_polite_case := C63_polite_partial (keq := Nat.eqb) 5 failing Nat.eqb_refl failing_polite.
(** Fails at 4, replays to 3, which is the target in the second run. *)
Example C63_polite_run : replayable Nat.eqb 6 None None failing = ([[(3, false); (4, false)]; [(3, true)]]%nat, Some Ended).
Proof. vm_compute. reflexivity. Qed.

Theorem C63_places_refuted : forall {S A} (callersItself inMark replayerMark c1 c2 : S) (args : A),
  markerKey (stackAt callersItself inMark replayerMark c1) args = markerKey (stackAt callersItself inMark replayerMark c2) args.
Proof. exact @c63_places_refuted. Qed.
Print Assumptions C63_places_refuted.
(** Two markers, at lines 118 and 29 of two test files (files have numbers: 1 in the run time, 2 replayable.go, 3 and 4 the tests). *)
Example C63_places_case := C63_places_refuted (1%nat, 331%nat) (2%nat, 50%nat) (2%nat, 29%nat) (3%nat, 118%nat) (4%nat, 29%nat) (@nil nat).

Theorem C63_confused : forall {Key : Type} {keq : Key -> Key -> bool}
    (k : Key) fuel,
  keq k k = true -> replayable keq (Datatypes.S (Datatypes.S fuel)) None None (PMark k (fun b1 => if b1 then PEnd else PMark k (fun _ => PReplay None PEnd))) =
  ([[(k, false); (k, false)]; [(k, true)]], Some Ended).
Proof. exact @c63_confused. Qed.
Print Assumptions C63_confused.
Example C63_confused_case := C63_confused (keq := Nat.eqb) 5%nat 4 eq_refl.

Theorem C63_refuted : forall {Key : Type} {keq : Key -> Key -> bool}
    (k : Key),
  forall fuel, snd (replayable keq fuel None None (PMark k (fun _ => PReplay (Some k) PEnd))) = None.
Proof. exact @c63_refuted. Qed.
Print Assumptions C63_refuted.
Example C63_refuted_run : let r := replayable Nat.eqb 20 None None (PMark 1%nat (fun _ => PReplay (Some 1%nat) PEnd)) in (length (fst r), snd r, last (fst r) []) = (20%nat, None, [(1%nat, true)]).
Proof. vm_compute. reflexivity. Qed.

Theorem C62_packers : forall {E : Env} {EO : EnvOk E} {T : Type} {K : Key T} {vok : T -> Prop} {KO : KeyOk K vok}
    (eq : T -> T -> bool) d m1 d1 m2 d2,
  (forall a b, vok a -> vok b -> eq a b = true -> veq a b = true) ->
  wf vok d (Branch m1 d1) -> wf vok d (Branch m2 d2) ->
  exists b, equalPacker treeFuel eq d1 d2 = Ok b /\ (b = true <-> eqv eq (elems (Branch m1 d1)) (elems (Branch m2 d2))).
Proof. exact @c62_packers. Qed.
Print Assumptions C62_packers.
(** The packers of two sets of the same elements, which were made in different ways. *)
Definition packOf (s : set Z) : list (option (node Z)) := match t_root (s_tree s) with Some (Branch _ d) => d | _ => [] end.
Definition maskOf (s : set Z) := match t_root (s_tree s) with Some (Branch m _) => m | _ => 0%N end.
Lemma packer_wf s : SetReach anyZ s -> t_root (s_tree s) = Some (Branch (maskOf s) (packOf s)) -> wf anyZ 0 (Branch (maskOf s) (packOf s)).
Proof. intros H E1. apply (sreach_ok s) in H. destruct H as [H _]. apply H. exact E1. Qed.
Example C62_packers_case := C62_packers veq 0 (maskOf sA) (packOf sA) (maskOf sA') (packOf sA') (fun _ _ _ _ H => H) (packer_wf sA sA_reach eq_refl) (packer_wf sA' sA'_reach eq_refl).
Example C62_packers_run : (equalPacker treeFuel veq (packOf sA) (packOf sA'), equalPacker treeFuel Z.eqb (packOf sA) (packOf sA'), equalPacker treeFuel veq (packOf sA) (packOf sB)) =
  (Ok true, Ok false, Ok false).
Proof. vm_compute. reflexivity. Qed.
