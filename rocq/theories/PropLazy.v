(** * PropLazy: lazy (C35-C39).

    Generated by tools/genprops.py from SpecLazy.v and tools/examples/PropLazy.txt.
    Every theorem is followed by a case that meets its hypotheses. *)
From Verif Require Import Base Bits Env EnvFacts Node NodeWf Iter Tree TreeFacts SetApi SetFacts Reach Spec SpecSet Lazy LazyFacts LazyScript SpecLazy ExampleData.

(** Integers with an equality and a hash that depends on the order of folding. *)
#[local] Instance KL : Key Z := {| veq := Z.eqb; vhash := fun a seed => wrap 64 (seed * 31 + Z.to_N a) |}.
#[local] Instance KL_ok : KeyOk KL anyZ.
Proof.
  constructor; cbn; intros; try (apply wrap_lt).
  - apply Z.eqb_refl.
  - rewrite Z.eqb_sym. auto.
  - rewrite Z.eqb_eq in *. congruence.
  - rewrite Z.eqb_eq in *. congruence.
Qed.
(** Lazy sets as values, coded as integers from 1000 on, with a bit for each of the elements 0 to 7; none of them is a frozen.Set. *)
Definition bitL (s : set Z) (x : Z) : Z := if okOr false (s_has s x) then (2 ^ x)%Z else 0%Z.
#[local] Instance BL : Boxes Z := {|
  box := fun s => (1000 + (bitL s 0 + bitL s 1 + bitL s 2 + bitL s 3 + bitL s 4 + bitL s 5 + bitL s 6 + bitL s 7))%Z;
  emptyBox := 999%Z;
  unbox := fun _ => None;
|}.
Local Open Scope Z_scope.
Definition newL (l : list Z) : set Z := okOr s_empty (s_new l).
Definition s12 : set Z := Eval vm_compute in newL [1; 2].
Definition s21 : set Z := Eval vm_compute in newL [2; 1].
Definition s23 : set Z := Eval vm_compute in newL [2; 3].
Definition s14 : set Z := Eval vm_compute in newL [1; 2; 3; 4].
Definition s7 : set Z := Eval vm_compute in newL [7].
Lemma new_reach l s : s_new l = Ok s -> SetReach anyZ s.
Proof. intros H. apply (sr_new _ _ _ l); [|exact H]. intros v _. exact Logic.I. Qed.
Lemma s14_reach : SetReach anyZ s14. Proof. apply (new_reach [1; 2; 3; 4]). vm_compute. reflexivity. Qed.
Lemma s23_reach : SetReach anyZ s23. Proof. apply (new_reach [2; 3]). vm_compute. reflexivity. Qed.
Lemma s7_reach : SetReach anyZ s7. Proof. apply (new_reach [7]). vm_compute. reflexivity. Qed.

(** A call with no other goroutine around. *)
Definition alone {A} (m : prog Z A) : res A := r <- exec m [] ;; Ok (fst r).

(** The main goroutine makes ten sets: 0: {1,2,3,4}, 1: {2,3}, 2: 0 union 1, 3: the even ones of 2, 4: the halves of 2,
    5: 2 intersection 1, 6: the symmetric difference of 0 and 1, 7: 0 without 4, 8: the empty set, 9: 3 union 7, 10: {7}, 11: the odd ones of 10. *)
Definition setupL : list (call Z) :=
  [CFrozen s14; CFrozen s23; CUnion 0 1; CWhere 2 Z.even; CMap 2 (fun z => z / 2); CInter 2 1; CSym 0 1; CWithout 0 4;
   CEmpty; CUnion 3 7; CFrozen s7; CWhere 10 Z.odd].
(** Two goroutines use them at the same time. *)
Definition goL1 : list (call Z) :=
  [CHas 2 3; CRange 2; CNext 0; CNext 0; CNext 0; CNext 0; CNext 0; CHas 3 3; CFastHas 7 4; CFastHas 5 3; CIsEmpty 5;
   CFastIsEmpty 7; CCount 6; CCountUpTo 6 1; CFastCount 7; CFastCountUpTo 7 2; CEqual 2 0; CEqualSet 3 6; CSubset 5 2;
   CHash 6 0; CFreeze 6; CHash 10 5; CHash 11 5].
Definition goL2 : list (call Z) :=
  [CRange 2; CNext 0; CRange 4; CNext 1; CNext 0; CNext 1; CNext 0; CNext 1; CNext 0; CNext 1; CNext 0; CHas 2 3; CFreeze 9].
Definition goesL : list (list (call Z)) := [goL1; goL2].
Definition schedL : list nat := repeat 0%nat 2 ++ concat (repeat [0%nat; 1%nat] 120).

Definition v0 : uexp Z := UFrozen s14.
Definition v1 : uexp Z := UFrozen s23.
Definition v2 : uexp Z := UUnion v0 v1.
Definition v3 : uexp Z := UWhere v2 Z.even.
Definition v4 : uexp Z := UMap v2 (fun z => z / 2).
Definition v5 : uexp Z := UInter v2 v1.
Definition v6 : uexp Z := USym v0 v1.
Definition v7 : uexp Z := UWithout v0 4.
Definition v9 : uexp Z := UUnion v3 v7.
Definition v10 : uexp Z := UFrozen s7.
Definition v11 : uexp Z := UWhere v10 Z.odd.

Ltac argL := cbn; first
  [ exact s14_reach | exact s23_reach | exact s7_reach | exact Logic.I | (intros a b _ _ E; apply Z.eqb_eq in E; subst b; reflexivity)
  | (split; [intros; exact Logic.I | intros a b _ _ E; apply Z.eqb_eq in E; subst b; apply Z.eqb_refl]) ].
Ltac scriptL := repeat (split; [argL|split; [cbn; tauto|split; [cbn; exact Logic.I|]]]); try exact Logic.I.
Lemma okL : SessionOk anyZ setupL goesL.
Proof.
  split; [unfold setupL; scriptL|]. intros cs [<-|[<-|[]]]; [unfold goL1|unfold goL2]; scriptL.
Qed.

(** Sessions with power sets. The main goroutine makes 0: {1,2,3,4}, 1: {2,3}, 2: 0 intersection 1, 3: the power set of 2,
    4: the values of 3 below 1010. *)
Definition setupP : list (call Z) := [CFrozen s14; CFrozen s23; CInter 0 1; CPow 2; CWhere 3 (fun z => z <? 1010)].
Definition goP1 : list (call Z) :=
  [CCount 3; CRange 3; CNext 0; CNext 0; CNext 0; CNext 0; CNext 0; CIsEmpty 3; CCountUpTo 3 3; CFreeze 4; CFastCount 3].
Definition goP2 : list (call Z) :=
  [CRange 4; CNext 0; CRange 3; CNext 1; CNext 0; CNext 1; CNext 0; CNext 1; CNext 0; CNext 1; CNext 1; CEqualSet 3 4; CSubset 4 3].
Definition goesP : list (list (call Z)) := [goP1; goP2].
Definition schedP : list nat := concat (repeat [0%nat; 1%nat] 60).
Definition w2 : uexp Z := UInter (UFrozen s14) (UFrozen s23).
Definition w3 : uexp Z := UPow w2.
Definition w4 : uexp Z := UWhere w3 (fun z => z <? 1010).
Lemma has_s14 x : Has s14 x <-> x = 1 \/ x = 2 \/ x = 3 \/ x = 4.
Proof.
  rewrite (has_lookup (vok := anyZ) s14 x (sreach_ok _ s14_reach) Logic.I). unfold NodeWf.lookup.
  change (sel s14) with [1; 2; 3; 4]. cbn [find]. change (@veq Z KL) with Z.eqb.
  destruct (Z.eqb_spec 1 x), (Z.eqb_spec 2 x), (Z.eqb_spec 3 x), (Z.eqb_spec 4 x); split; intros H; try congruence; try lia; contradiction.
Qed.
Lemma has_s23 x : Has s23 x <-> x = 2 \/ x = 3.
Proof.
  rewrite (has_lookup (vok := anyZ) s23 x (sreach_ok _ s23_reach) Logic.I). unfold NodeWf.lookup.
  change (sel s23) with [2; 3]. cbn [find]. change (@veq Z KL) with Z.eqb.
  destruct (Z.eqb_spec 2 x), (Z.eqb_spec 3 x); split; intros H; try congruence; try lia; contradiction.
Qed.
Lemma w2_has x : Member anyZ w2 x <-> x = 2 \/ x = 3.
Proof. cbn [Member w2]. rewrite has_s14, has_s23. lia. Qed.
Lemma w2_card : Card anyZ w2 2.
Proof.
  exists [2; 3]. split; [|reflexivity]. split; [intros a _; exact Logic.I|]. split.
  - intros i j a b Hi Hj Hij. destruct i as [|[|i]], j as [|[|j]]; cbn in Hi, Hj; try lia; try (destruct i; discriminate); try (destruct j; discriminate); injection Hi as <-; injection Hj as <-; reflexivity.
  - intros x _. rewrite w2_has. change (@veq Z KL) with Z.eqb. split.
    + intros [->| ->]; [exists 2|exists 3]; cbn; auto.
    + intros (e & [<-|[<-|[]]] & H); apply Z.eqb_eq in H; lia.
Qed.
Lemma bitL_has s x : 0 <= x -> (bitL s x = 2 ^ x /\ Has s x) \/ (bitL s x = 0 /\ ~ Has s x).
Proof.
  intros Hx. unfold bitL, Has. destruct (s_has s x) as [[]| |]; cbn; [left|right|right|right]; split; auto; discriminate.
Qed.
Lemma box_same s t : (forall y, Has s y -> y = 2 \/ y = 3) -> (forall y, Has t y -> y = 2 \/ y = 3) ->
  box s = box t <-> SameMembers anyZ s t.
Proof.
  intros Hs Ht. assert (H0 : forall u x, 0 <= x -> x <> 2 -> x <> 3 -> (forall y, Has u y -> y = 2 \/ y = 3) -> bitL u x = 0).
  { intros u x H1 H2 H3 H4. destruct (bitL_has u x H1) as [[_ H]|[H _]]; auto. apply H4 in H. lia. }
  assert (H1 : forall u, (forall y, Has u y -> y = 2 \/ y = 3) -> box u = 1000 + (bitL u 2 + bitL u 3)).
  { intros u Hu. unfold box, BL. rewrite (H0 u 0), (H0 u 1), (H0 u 4), (H0 u 5), (H0 u 6), (H0 u 7) by (auto; lia). lia. }
  rewrite (H1 s Hs), (H1 t Ht).
  pose proof (bitL_has s 2 ltac:(lia)) as B2. pose proof (bitL_has s 3 ltac:(lia)) as B3.
  pose proof (bitL_has t 2 ltac:(lia)) as C2. pose proof (bitL_has t 3 ltac:(lia)) as C3.
  change (2 ^ 2) with 4 in *. change (2 ^ 3) with 8 in *.
  assert (Q : (Has s 2 <-> Has t 2) /\ (Has s 3 <-> Has t 3) <-> 1000 + (bitL s 2 + bitL s 3) = 1000 + (bitL t 2 + bitL t 3)).
  { clear - B2 B3 C2 C3. revert B2 B3 C2 C3. generalize (bitL s 2) (bitL s 3) (bitL t 2) (bitL t 3) (Has s 2) (Has s 3) (Has t 2) (Has t 3).
    intros b2 b3 c2 c3 S2 S3 T2 T3 [[-> ?]|[-> ?]] [[-> ?]|[-> ?]] [[-> ?]|[-> ?]] [[-> ?]|[-> ?]];
      (split; [intros [? ?]; first [reflexivity|tauto]|intros ?; first [discriminate|tauto]]). }
  rewrite <- Q. split.
  - intros [E2 E3] x _. split; intros Hx.
    + destruct (Hs x Hx) as [->| ->]; [apply E2|apply E3]; exact Hx.
    + destruct (Ht x Hx) as [->| ->]; [apply E2|apply E3]; exact Hx.
  - intros H. split; apply H; exact Logic.I.
Qed.
Lemma w2_pow : PowFine anyZ w2.
Proof.
  split; [cbn; tauto|]. split; [exists 2; split; [exact w2_card|lia]|].
  split; [intros; exact Logic.I|]. split.
  - intros s t [_ Hs] [_ Ht]. change (@veq Z KL) with Z.eqb. rewrite Z.eqb_eq.
    apply box_same; intros y Hy; apply w2_has; [apply Hs|apply Ht]; first [exact Logic.I|exact Hy].
  - intros x s _ H. discriminate.
Qed.
Lemma okP : SessionOk anyZ setupP goesP.
Proof.
  split.
  - unfold setupP. do 3 (split; [argL|split; [cbn; tauto|split; [cbn; exact Logic.I|]]]).
    split; [argL|]. split; [cbn; tauto|]. split; [exact w2_pow|]. scriptL.
  - intros cs [<-|[<-|[]]]; [unfold goP1|unfold goP2]; scriptL.
Qed.

(** The [k]th answer that goroutine [i] gets. *)
Definition answerL (i k : nat) : option (answer Z) :=
  match session setupL goesL schedL with
  | Ok (ths, _) => match nth_error ths i with Some (Ret (ans, _)) => nth_error ans k | _ => None end
  | _ => None
  end.
Definition answerP (i k : nat) : option (answer Z) :=
  match session setupP goesP schedP with
  | Ok (ths, _) => match nth_error ths i with Some (Ret (ans, _)) => nth_error ans k | _ => None end
  | _ => None
  end.
Lemma sawL i k a : answerL i k = Some a -> Saw setupL goesL schedL i a.
Proof.
  unfold answerL, Saw. destruct (session setupL goesL schedL) as [[ths h]| |]; try discriminate.
  destruct (nth_error ths i) as [[[ans st]| | | | |]|] eqn:E; try discriminate. intros H.
  exists ths, h, ans, st. split; auto. split; auto. eapply nth_error_In; eauto.
Qed.
Lemma sawP i k a : answerP i k = Some a -> Saw setupP goesP schedP i a.
Proof.
  unfold answerP, Saw. destruct (session setupP goesP schedP) as [[ths h]| |]; try discriminate.
  destruct (nth_error ths i) as [[[ans st]| | | | |]|] eqn:E; try discriminate. intros H.
  exists ths, h, ans, st. split; auto. split; auto. eapply nth_error_In; eauto.
Qed.

Local Open Scope Z_scope.

Theorem C35_has_partial : forall {E : Env} {HE : EnvOk E} {T : Type} {K : Key T} {vok : T -> Prop} {KO : KeyOk K vok} {B : Boxes T}
    setup scripts sched i u x b,
  SessionOk vok setup scripts -> Saw setup scripts sched i (AHas u x b) ->
  HasFine u -> (b = true <-> Member vok u x).
Proof. exact @c35_has. Qed.
Print Assumptions C35_has_partial.
Lemma saw_C35_has : Saw setupL goesL schedL 0 (AHas v2 3 true).
Proof. apply (sawL 0 0). vm_compute. reflexivity. Qed.
Example C35_has_case := C35_has_partial setupL goesL schedL 0 v2 3 true okL saw_C35_has (conj Logic.I Logic.I) .
(** The property is false for differences: (Frozen {1,2}).Difference(Frozen {2,3}) has 3, and 2: *)
Theorem C35_difference_refuted :
  alone (e <~ l_difference (LFrozen s12) (LFrozen s23) ;; x <~ l_has e 3 ;; y <~ l_has e 2 ;; Ret (x, y)) = Ok (true, true) /\
  ~ Member anyZ (UDiff (UFrozen s12) (UFrozen s23)) 3 /\ ~ Member anyZ (UDiff (UFrozen s12) (UFrozen s23)) 2.
Proof. split; [vm_compute; reflexivity|]. split; intros [H1 H2]; vm_compute in H1, H2; [discriminate|apply H2; reflexivity]. Qed.
Print Assumptions C35_difference_refuted.
(** So symmetric differences are wrong too: 2 is in both sets. *)
Theorem C35_symmetricDifference_refuted :
  alone (e <~ l_symmetricDifference (LFrozen s12) (LFrozen s23) ;; l_has e 2) = Ok true /\
  ~ Member anyZ (USym (UFrozen s12) (UFrozen s23)) 2.
Proof. split; [vm_compute; reflexivity|]. intros [[H1 H2]|[H1 H2]]; vm_compute in H1, H2; apply H2; reflexivity. Qed.
Print Assumptions C35_symmetricDifference_refuted.
(** The answer of Has depends on the history: once the difference has been iterated over, it is right. *)
Theorem C35_history_refuted :
  alone (e <~ l_difference (LFrozen s12) (LFrozen s23) ;; x <~ l_has e 3 ;; _ <~ l_toList e ;; y <~ l_has e 3 ;; Ret (x, y)) = Ok (true, false).
Proof. vm_compute. reflexivity. Qed.
Print Assumptions C35_history_refuted.
(** FastHas of a union, or of a difference, answers for its first operand. *)
Theorem C35_fastHas_refuted :
  alone (e <~ l_union (LFrozen s12) (LFrozen s23) ;; l_fastHas e 3) = Ok (Some false) /\
  Member anyZ (UUnion (UFrozen s12) (UFrozen s23)) 3 /\
  alone (e <~ l_difference (LFrozen s12) (LFrozen s23) ;; l_fastHas e 2) = Ok (Some true) /\
  ~ Member anyZ (UDiff (UFrozen s12) (UFrozen s23)) 2.
Proof.
  split; [vm_compute; reflexivity|]. split; [right; vm_compute; reflexivity|]. split; [vm_compute; reflexivity|].
  intros [H1 H2]; vm_compute in H2; apply H2; reflexivity.
Qed.
Print Assumptions C35_fastHas_refuted.
(** Whatever the element type: a power set that has not been iterated over does not have the values that its iterator
    gives, since these are lazy sets and Has looks for a frozen.Set. *)
Theorem C35_powerset_refuted :
  alone (e <~ l_powerset (LFrozen s12) ;; x <~ l_has e (box s12) ;; l <~ l_toList e ;; y <~ l_has e (box s12) ;;
         Ret (x, existsb (Z.eqb (box s12)) l, y)) = Ok (false, true, true).
Proof. vm_compute. reflexivity. Qed.
Print Assumptions C35_powerset_refuted.

Theorem C35_fastHas_partial : forall {E : Env} {HE : EnvOk E} {T : Type} {K : Key T} {vok : T -> Prop} {KO : KeyOk K vok} {B : Boxes T}
    setup scripts sched i u x b,
  SessionOk vok setup scripts ->
  Saw setup scripts sched i (AFastHas u x (Some b)) -> FastFine u -> (b = true <-> Member vok u x).
Proof. exact @c35_fastHas. Qed.
Print Assumptions C35_fastHas_partial.
Lemma saw_C35_fastHas : Saw setupL goesL schedL 0 (AFastHas v7 4 (Some false)).
Proof. apply (sawL 0 7). vm_compute. reflexivity. Qed.
Example C35_fastHas_case := C35_fastHas_partial setupL goesL schedL 0 v7 4 false okL saw_C35_fastHas Logic.I .

Theorem C36_value_partial : forall {E : Env} {HE : EnvOk E} {T : Type} {K : Key T} {vok : T -> Prop} {KO : KeyOk K vok} {B : Boxes T}
    setup scripts sched i u v,
  SessionOk vok setup scripts -> Saw setup scripts sched i (AValue u v) ->
  vok v /\ Member vok u v.
Proof. exact @c36_value. Qed.
Print Assumptions C36_value_partial.
Lemma saw_C36_value : Saw setupL goesL schedL 1 (AValue v4 1).
Proof. apply (sawL 1 3). vm_compute. reflexivity. Qed.
Example C36_value_case := C36_value_partial setupL goesL schedL 1 v4 1 okL saw_C36_value .
(** The power set gives {2}, coded as 1004. *)
Lemma saw_C36_value_pow : Saw setupP goesP schedP 0 (AValue w3 1004).
Proof. apply (sawP 0 2). vm_compute. reflexivity. Qed.
Example C36_value_pow_case := C36_value_partial setupP goesP schedP 0 w3 1004 okP saw_C36_value_pow .

Theorem C36_all_partial : forall {E : Env} {HE : EnvOk E} {T : Type} {K : Key T} {vok : T -> Prop} {KO : KeyOk K vok} {B : Boxes T}
    setup scripts sched i u l,
  SessionOk vok setup scripts -> Saw setup scripts sched i (ADone u l) ->
  forall x, vok x -> (Member vok u x <-> exists e, In e l /\ veq e x = true).
Proof. exact @c36_all. Qed.
Print Assumptions C36_all_partial.
Lemma saw_C36_all : Saw setupL goesL schedL 1 (ADone v4 [0; 1; 2]).
Proof. apply (sawL 1 7). vm_compute. reflexivity. Qed.
Example C36_all_case := C36_all_partial setupL goesL schedL 1 v4 [0; 1; 2] okL saw_C36_all .
Lemma saw_C36_all_pow : Saw setupP goesP schedP 1 (ADone w4 [1000; 1004; 1008]).
Proof. apply (sawP 1 6). vm_compute. reflexivity. Qed.
Example C36_all_pow_case := C36_all_partial setupP goesP schedP 1 w4 [1000; 1004; 1008] okP saw_C36_all_pow .

Theorem C36_once_partial : forall {E : Env} {HE : EnvOk E} {T : Type} {K : Key T} {vok : T -> Prop} {KO : KeyOk K vok} {B : Boxes T}
    setup scripts sched i u l,
  SessionOk vok setup scripts -> Saw setup scripts sched i (ADone u l) ->
  OnceFine vok u -> Lists vok l (Member vok u).
Proof. exact @c36_once. Qed.
Print Assumptions C36_once_partial.
Lemma saw_C36_once : Saw setupL goesL schedL 0 (ADone v2 [1; 2; 3; 4]).
Proof. apply (sawL 0 5). vm_compute. reflexivity. Qed.
Example C36_once_case := C36_once_partial setupL goesL schedL 0 v2 [1; 2; 3; 4] okL saw_C36_once (or_introl Logic.I) .
(** The property is false without the condition: (A union B).Difference(the empty set) is the union without its memo,
    and gives what is in both operands twice. *)
Theorem C36_twice_refuted :
  alone (e <~ l_union (LFrozen s12) (LFrozen s23) ;; d <~ l_difference e LEmpty ;; l_toList d) = Ok [1; 2; 2; 3].
Proof. vm_compute. reflexivity. Qed.
Print Assumptions C36_twice_refuted.
(** Nor is iteration right when it asks a difference: {1,2,3,4} less ({1,2} less {2,3}) should be {2,3,4}. *)
Theorem C36_difference_refuted :
  alone (d <~ l_difference (LFrozen s12) (LFrozen s23) ;; e <~ l_difference (LFrozen s14) d ;; l_toList e) = Ok [4].
Proof. vm_compute. reflexivity. Qed.
Print Assumptions C36_difference_refuted.
(** The four subsets of {2,3}, each once. *)
Lemma saw_C36_once_pow : Saw setupP goesP schedP 0 (ADone w3 [1000; 1004; 1012; 1008]).
Proof. apply (sawP 0 5). vm_compute. reflexivity. Qed.
Example C36_once_pow_case := C36_once_partial setupP goesP schedP 0 w3 [1000; 1004; 1012; 1008] okP saw_C36_once_pow Logic.I.
(** And of {1,2}. *)
Example C36_powerset_run :
  alone (e <~ l_powerset (LFrozen s12) ;; l_toList e) = Ok (map box [s_empty; newL [1]; newL [1; 2]; newL [2]]).
Proof. vm_compute. reflexivity. Qed.

Theorem C36_freeze_partial : forall {E : Env} {HE : EnvOk E} {T : Type} {K : Key T} {vok : T -> Prop} {KO : KeyOk K vok} {B : Boxes T}
    setup scripts sched i u s,
  SessionOk vok setup scripts -> Saw setup scripts sched i (AFreeze u s) ->
  forall x, vok x -> (Has s x <-> Member vok u x).
Proof. exact @c36_freeze. Qed.
Print Assumptions C36_freeze_partial.
Definition s1_4 : set Z := Eval vm_compute in newL [1; 4].
Lemma saw_C36_freeze : Saw setupL goesL schedL 0 (AFreeze v6 s1_4).
Proof. apply (sawL 0 19). vm_compute. reflexivity. Qed.
Example C36_freeze_case := C36_freeze_partial setupL goesL schedL 0 v6 s1_4 okL saw_C36_freeze.
Definition sPow : set Z := Eval vm_compute in newL [1000; 1004; 1008].
Lemma saw_C36_freeze_pow : Saw setupP goesP schedP 0 (AFreeze w4 sPow).
Proof. apply (sawP 0 8). vm_compute. reflexivity. Qed.
Example C36_freeze_pow_case := C36_freeze_partial setupP goesP schedP 0 w4 sPow okP saw_C36_freeze_pow.

Theorem C37_isEmpty_partial : forall {E : Env} {HE : EnvOk E} {T : Type} {K : Key T} {vok : T -> Prop} {KO : KeyOk K vok} {B : Boxes T}
    setup scripts sched i u b,
  SessionOk vok setup scripts -> Saw setup scripts sched i (AIsEmpty u b) ->
  (b = true <-> forall x, vok x -> ~ Member vok u x).
Proof. exact @c37_isEmpty. Qed.
Print Assumptions C37_isEmpty_partial.
Lemma saw_C37_isEmpty : Saw setupL goesL schedL 0 (AIsEmpty v5 false).
Proof. apply (sawL 0 9). vm_compute. reflexivity. Qed.
Example C37_isEmpty_case := C37_isEmpty_partial setupL goesL schedL 0 v5 false okL saw_C37_isEmpty .
(** The property is false for power sets: P(the empty set) = {the empty set} is reported empty, until it has been iterated over. *)
Theorem C37_isEmpty_refuted :
  alone (e <~ l_powerset (LFrozen s_empty) ;; b <~ l_isEmpty e ;; l <~ l_toList e ;; b' <~ l_isEmpty e ;;
         Ret (b, length l, b')) = Ok (true, 1%nat, false).
Proof. vm_compute. reflexivity. Qed.
Print Assumptions C37_isEmpty_refuted.
Lemma saw_C37_isEmpty_pow : Saw setupP goesP schedP 0 (AIsEmpty w3 false).
Proof. apply (sawP 0 6). vm_compute. reflexivity. Qed.
Example C37_isEmpty_pow_case := C37_isEmpty_partial setupP goesP schedP 0 w3 false okP saw_C37_isEmpty_pow .

Theorem C37_fastIsEmpty_partial : forall {E : Env} {HE : EnvOk E} {T : Type} {K : Key T} {vok : T -> Prop} {KO : KeyOk K vok} {B : Boxes T}
    setup scripts sched i u b,
  SessionOk vok setup scripts ->
  Saw setup scripts sched i (AFastIsEmpty u (Some b)) -> (b = true <-> forall x, vok x -> ~ Member vok u x).
Proof. exact @c37_fastIsEmpty. Qed.
Print Assumptions C37_fastIsEmpty_partial.
Lemma saw_C37_fastIsEmpty : Saw setupL goesL schedL 0 (AFastIsEmpty v7 (Some false)).
Proof. apply (sawL 0 10). vm_compute. reflexivity. Qed.
Example C37_fastIsEmpty_case := C37_fastIsEmpty_partial setupL goesL schedL 0 v7 false okL saw_C37_fastIsEmpty .

Theorem C37_count_partial : forall {E : Env} {HE : EnvOk E} {T : Type} {K : Key T} {vok : T -> Prop} {KO : KeyOk K vok} {B : Boxes T}
    setup scripts sched i u n,
  SessionOk vok setup scripts -> Saw setup scripts sched i (ACount u n) ->
  CountFine vok u -> forall k, Card vok u k -> k < 2 ^ 63 -> n = k.
Proof. exact @c37_count. Qed.
Print Assumptions C37_count_partial.
(** set_base.go:11: the greatest [int], all bits of the word shifted right by one. *)
Example C37_maxInt_run : maxInt = Z.of_N (N.shiftr (2 ^ 64 - 1) 1).
Proof. vm_compute. reflexivity. Qed.
Lemma saw_C37_count : Saw setupL goesL schedL 0 (ACount v6 2).
Proof. apply (sawL 0 11). vm_compute. reflexivity. Qed.
Lemma v6_card : Card anyZ v6 2.
Proof.
  exists [1; 4]. split; [|reflexivity]. split; [intros a _; exact Logic.I|]. split.
  - intros i j a b Hi Hj Hij. destruct i as [|[|i]], j as [|[|j]]; cbn in Hi, Hj; try lia; try (destruct i; discriminate); try (destruct j; discriminate); injection Hi as <-; injection Hj as <-; reflexivity.
  - intros x _. assert (H0 : Has s14 x <-> x = 1 \/ x = 2 \/ x = 3 \/ x = 4).
    { rewrite (has_lookup (vok := anyZ) s14 x (sreach_ok _ s14_reach) Logic.I). unfold NodeWf.lookup.
      change (sel s14) with [1; 2; 3; 4]. cbn [find]. change (@veq Z KL) with Z.eqb.
      destruct (Z.eqb_spec 1 x), (Z.eqb_spec 2 x), (Z.eqb_spec 3 x), (Z.eqb_spec 4 x); split; intros H; try congruence; try lia; contradiction. }
    assert (H1 : Has s23 x <-> x = 2 \/ x = 3).
    { rewrite (has_lookup (vok := anyZ) s23 x (sreach_ok _ s23_reach) Logic.I). unfold NodeWf.lookup.
      change (sel s23) with [2; 3]. cbn [find]. change (@veq Z KL) with Z.eqb.
      destruct (Z.eqb_spec 2 x), (Z.eqb_spec 3 x); split; intros H; try congruence; try lia; contradiction. }
    cbn [Member v6 v0 v1]. rewrite H0, H1. change (@veq Z KL) with Z.eqb. split.
    + intros H. assert (x = 1 \/ x = 4) as [->| ->] by lia; [exists 1|exists 4]; cbn; auto.
    + intros (e & [<-|[<-|[]]] & H); apply Z.eqb_eq in H; lia.
Qed.
Example C37_count_case := C37_count_partial setupL goesL schedL 0 v6 2 okL saw_C37_count (conj Logic.I Logic.I) 2 v6_card eq_refl.
(** The property is false for overlapping unions: {1,2} union {1,2} has 4 elements before it is iterated over and 2 after. *)
Theorem C37_count_refuted :
  alone (e <~ l_union (LFrozen s12) (LFrozen s12) ;; n <~ l_count e ;; l <~ l_toList e ;; k <~ l_count e ;; Ret (n, l, k)) = Ok (4, [1; 2], 2).
Proof. vm_compute. reflexivity. Qed.
Print Assumptions C37_count_refuted.
(** And for the power set of a set of 63 elements: *)
Theorem C37_powerset_refuted :
  alone (s <~ lift (s_new (map Z.of_nat (seq 0 63))) ;; e <~ l_powerset (LFrozen s) ;; l_count e) = Ok (- 2 ^ 63).
Proof. vm_compute. reflexivity. Qed.
Print Assumptions C37_powerset_refuted.

Theorem C37_fastCount_partial : forall {E : Env} {HE : EnvOk E} {T : Type} {K : Key T} {vok : T -> Prop} {KO : KeyOk K vok} {B : Boxes T}
    setup scripts sched i u n,
  SessionOk vok setup scripts ->
  Saw setup scripts sched i (AFastCount u (Some n)) -> Card vok u n.
Proof. exact @c37_fastCount. Qed.
Print Assumptions C37_fastCount_partial.
Lemma saw_C37_fastCount : Saw setupL goesL schedL 0 (AFastCount v7 (Some 3)).
Proof. apply (sawL 0 13). vm_compute. reflexivity. Qed.
Example C37_fastCount_case := C37_fastCount_partial setupL goesL schedL 0 v7 3 okL saw_C37_fastCount.
(** So the power set of {2,3} has 4 elements. *)
Lemma saw_C37_fastCount_pow : Saw setupP goesP schedP 0 (AFastCount w3 (Some 4)).
Proof. apply (sawP 0 9). vm_compute. reflexivity. Qed.
Example C37_fastCount_pow_case := C37_fastCount_partial setupP goesP schedP 0 w3 4 okP saw_C37_fastCount_pow.

Theorem C37_countUpTo_partial : forall {E : Env} {HE : EnvOk E} {T : Type} {K : Key T} {vok : T -> Prop} {KO : KeyOk K vok} {B : Boxes T}
    setup scripts sched i u limit n,
  SessionOk vok setup scripts ->
  Saw setup scripts sched i (ACountUpTo u limit n) -> CountFine vok u -> 0 <= limit ->
  forall k, Card vok u k -> n = Z.min limit k.
Proof. exact @c37_countUpTo. Qed.
Print Assumptions C37_countUpTo_partial.
Lemma saw_C37_countUpTo : Saw setupL goesL schedL 0 (ACountUpTo v6 1 1).
Proof. apply (sawL 0 12). vm_compute. reflexivity. Qed.
Example C37_countUpTo_case := C37_countUpTo_partial setupL goesL schedL 0 v6 1 1 okL saw_C37_countUpTo (conj Logic.I Logic.I) ltac:(lia) 2 v6_card.
(** For a negative limit the answer depends on the history. *)
Theorem C37_limit_refuted :
  alone (e <~ l_where (LFrozen s14) Z.even ;; x <~ l_countUpTo e (-1) ;; _ <~ l_toList e ;; y <~ l_countUpTo e (-1) ;; Ret (x, y)) = Ok (0, -1).
Proof. vm_compute. reflexivity. Qed.
Print Assumptions C37_limit_refuted.
Lemma saw_C37_countUpTo_pow : Saw setupP goesP schedP 0 (ACountUpTo w3 3 3).
Proof. apply (sawP 0 7). vm_compute. reflexivity. Qed.
Example C37_countUpTo_pow_case :=
  C37_countUpTo_partial setupP goesP schedP 0 w3 3 3 okP saw_C37_countUpTo_pow Logic.I ltac:(lia) 4 C37_fastCount_pow_case.

Theorem C37_fastCountUpTo_partial : forall {E : Env} {HE : EnvOk E} {T : Type} {K : Key T} {vok : T -> Prop} {KO : KeyOk K vok} {B : Boxes T}
    setup scripts sched i u limit n,
  SessionOk vok setup scripts ->
  Saw setup scripts sched i (AFastCountUpTo u limit (Some n)) -> CountFine vok u -> 0 <= limit ->
  forall k, Card vok u k -> n = Z.min limit k.
Proof. exact @c37_fastCountUpTo. Qed.
Print Assumptions C37_fastCountUpTo_partial.
Lemma saw_C37_fastCountUpTo : Saw setupL goesL schedL 0 (AFastCountUpTo v7 2 (Some 2)).
Proof. apply (sawL 0 14). vm_compute. reflexivity. Qed.
Example C37_fastCountUpTo_case := C37_fastCountUpTo_partial setupL goesL schedL 0 v7 2 2 okL saw_C37_fastCountUpTo Logic.I ltac:(lia).

Theorem C38_equalSet_partial : forall {E : Env} {HE : EnvOk E} {T : Type} {K : Key T} {vok : T -> Prop} {KO : KeyOk K vok} {B : Boxes T}
    setup scripts sched i u w b,
  SessionOk vok setup scripts ->
  Saw setup scripts sched i (AEqualSet u w b) -> OnceFine vok w ->
  (b = true <-> forall x, vok x -> (Member vok u x <-> Member vok w x)).
Proof. exact @c38_equalSet. Qed.
Print Assumptions C38_equalSet_partial.
Lemma saw_C38_equalSet : Saw setupL goesL schedL 0 (AEqualSet v3 v6 false).
Proof. apply (sawL 0 16). vm_compute. reflexivity. Qed.
Example C38_equalSet_case := C38_equalSet_partial setupL goesL schedL 0 v3 v6 false okL saw_C38_equalSet (or_introl Logic.I) .
Lemma saw_C38_equalSet_pow : Saw setupP goesP schedP 1 (AEqualSet w3 w4 false).
Proof. apply (sawP 1 9). vm_compute. reflexivity. Qed.
Example C38_equalSet_pow_case := C38_equalSet_partial setupP goesP schedP 1 w3 w4 false okP saw_C38_equalSet_pow Logic.I.

Theorem C38_equal_partial : forall {E : Env} {HE : EnvOk E} {T : Type} {K : Key T} {vok : T -> Prop} {KO : KeyOk K vok} {B : Boxes T}
    setup scripts sched i u w b,
  SessionOk vok setup scripts ->
  Saw setup scripts sched i (AEqual u w b) -> OnceFine vok w -> Solid u ->
  (b = true <-> forall x, vok x -> (Member vok u x <-> Member vok w x)).
Proof. exact @c38_equal. Qed.
Print Assumptions C38_equal_partial.
Lemma saw_C38_equal : Saw setupL goesL schedL 0 (AEqual v2 v0 true).
Proof. apply (sawL 0 15). vm_compute. reflexivity. Qed.
Example C38_equal_case := C38_equal_partial setupL goesL schedL 0 v2 v0 true okL saw_C38_equal Logic.I (or_introl Logic.I) .
(** The property is false for EmptySet, whose Equal compares its argument with itself: *)
Theorem C38_empty_refuted : alone (l_equal LEmpty (LFrozen s12)) = Ok true.
Proof. vm_compute. reflexivity. Qed.
Print Assumptions C38_empty_refuted.

Theorem C38_isSubsetOf_partial : forall {E : Env} {HE : EnvOk E} {T : Type} {K : Key T} {vok : T -> Prop} {KO : KeyOk K vok} {B : Boxes T}
    setup scripts sched i u w b,
  SessionOk vok setup scripts ->
  Saw setup scripts sched i (ASubset u w b) -> OnceFine vok w ->
  (b = true <-> forall x, vok x -> Member vok u x -> Member vok w x).
Proof. exact @c38_isSubsetOf. Qed.
Print Assumptions C38_isSubsetOf_partial.
Lemma saw_C38_isSubsetOf : Saw setupL goesL schedL 0 (ASubset v5 v2 true).
Proof. apply (sawL 0 17). vm_compute. reflexivity. Qed.
Example C38_isSubsetOf_case := C38_isSubsetOf_partial setupL goesL schedL 0 v5 v2 true okL saw_C38_isSubsetOf (or_introl Logic.I) .
Lemma saw_C38_isSubsetOf_pow : Saw setupP goesP schedP 1 (ASubset w4 w3 true).
Proof. apply (sawP 1 10). vm_compute. reflexivity. Qed.
Example C38_isSubsetOf_pow_case := C38_isSubsetOf_partial setupP goesP schedP 1 w4 w3 true okP saw_C38_isSubsetOf_pow Logic.I.

Theorem C38_hash_partial : forall {E : Env} {HE : EnvOk E} {T : Type} {K : Key T} {vok : T -> Prop} {KO : KeyOk K vok} {B : Boxes T}
    setup scripts sched i u seed h,
  SessionOk vok setup scripts ->
  Saw setup scripts sched i (AHash u seed h) -> CountFine vok u ->
  exists l, Lists vok l (Member vok u) /\ h = fold_left (fun h v => vhash v h) l (env_uintptr hashSeed seed).
Proof. exact @c38_hash. Qed.
Print Assumptions C38_hash_partial.
Lemma saw_C38_hash : Saw setupL goesL schedL 0 (AHash v6 0 9766974366613964974).
Proof. apply (sawL 0 18). vm_compute. reflexivity. Qed.
Example C38_hash_case := C38_hash_partial setupL goesL schedL 0 v6 0%N 9766974366613964974%N okL saw_C38_hash (conj Logic.I Logic.I).
(** Equal sets can have different hashes: {1,2} and {2,1}. *)
Theorem C38_hash_refuted :
  alone (x <~ l_equal (LFrozen s12) (LFrozen s21) ;; h <~ l_hash (LFrozen s12) 0 ;; k <~ l_hash (LFrozen s21) 0 ;; Ret (x, (h =? k)%N)) = Ok (true, false).
Proof. vm_compute. reflexivity. Qed.
Print Assumptions C38_hash_refuted.

Theorem C38_hash_small_partial : forall {E : Env} {HE : EnvOk E} {T : Type} {K : Key T} {vok : T -> Prop} {KO : KeyOk K vok} {B : Boxes T}
    setup scripts sched i j u w seed h k n,
  SessionOk vok setup scripts ->
  Saw setup scripts sched i (AHash u seed h) -> Saw setup scripts sched j (AHash w seed k) ->
  CountFine vok u -> CountFine vok w -> (forall x, vok x -> (Member vok u x <-> Member vok w x)) ->
  Card vok u n -> n <= 1 -> h = k.
Proof. exact @c38_hash_small. Qed.
Print Assumptions C38_hash_small_partial.
Definition h7 : N := Eval vm_compute in okOr 0%N (alone (l_hash (LFrozen s7) 5)).
Lemma saw_h10 : Saw setupL goesL schedL 0 (AHash v10 5 h7).
Proof. apply (sawL 0 20). vm_compute. reflexivity. Qed.
Lemma saw_h11 : Saw setupL goesL schedL 0 (AHash v11 5 h7).
Proof. apply (sawL 0 21). vm_compute. reflexivity. Qed.
Lemma s7_has x : Has s7 x <-> x = 7.
Proof.
  rewrite (has_lookup (vok := anyZ) s7 x (sreach_ok _ s7_reach) Logic.I). unfold NodeWf.lookup.
  change (sel s7) with [7]. cbn [find]. change (@veq Z KL) with Z.eqb.
  destruct (Z.eqb_spec 7 x); split; intros H; try congruence; try lia; contradiction.
Qed.
Lemma v10_11 x : anyZ x -> Member anyZ v10 x <-> Member anyZ v11 x.
Proof. intros _. cbn [Member v10 v11]. rewrite s7_has. split; [intros ->; auto|intros [H _]; auto]. Qed.
Lemma v10_card : Card anyZ v10 1.
Proof.
  exists [7]. split; [|reflexivity]. split; [intros a _; exact Logic.I|]. split.
  - intros i j a b Hi Hj Hij. destruct i as [|[|i]], j as [|[|j]]; cbn in Hi, Hj; try lia; discriminate.
  - intros x _. cbn [Member v10]. rewrite s7_has. split.
    + intros ->. exists 7. split; [left|]; reflexivity.
    + intros (e & [<-|[]] & H). change (@veq Z KL) with Z.eqb in H. apply Z.eqb_eq in H. auto.
Qed.
Example C38_hash_small_case :=
  C38_hash_small_partial setupL goesL schedL 0 0 v10 v11 5%N h7 h7 1 okL saw_h10 saw_h11 Logic.I Logic.I v10_11 v10_card ltac:(lia).

Theorem C39_runs_partial : forall {E : Env} {HE : EnvOk E} {T : Type} {K : Key T} {vok : T -> Prop} {KO : KeyOk K vok} {B : Boxes T}
    setup scripts sched,
  SessionOk vok setup scripts ->
  exists ths h, session setup scripts sched = Ok (ths, h) /\ length ths = length scripts /\
    forall i m, nth_error ths i = Some m ->
      m <> PPanic /\ m <> PFuel /\ ((exists r, m = Ret r) \/ exists m' h', pstep m h = Some (m', h')).
Proof. exact @c39_runs. Qed.
Print Assumptions C39_runs_partial.
Example C39_runs_case := C39_runs_partial setupL goesL schedL okL.
Example C39_runs_pow_case := C39_runs_partial setupP goesP schedP okP.

Theorem C39_ends_partial : forall {E : Env} {HE : EnvOk E} {T : Type} {K : Key T} {vok : T -> Prop} {KO : KeyOk K vok} {B : Boxes T}
    setup scripts (sched : nat -> nat) i,
  SessionOk vok setup scripts -> (i < length scripts)%nat ->
  (forall n, exists k, (n <= k)%nat /\ sched k = i) ->
  exists n ths h ans st, session setup scripts (map sched (seq 0 n)) = Ok (ths, h) /\
    nth_error ths i = Some (Ret (ans, st)).
Proof. exact @c39_ends. Qed.
Print Assumptions C39_ends_partial.
Definition fairL (n : nat) : nat := (n mod 2)%nat.
Lemma fairL_fair i : (i < 2)%nat -> forall n, exists k, (n <= k)%nat /\ fairL k = i.
Proof.
  intros Hi n. exists (i + n * 2)%nat. split; [lia|]. unfold fairL. rewrite Nat.mod_add by lia. apply Nat.mod_small. auto.
Qed.
Example C39_ends_case := C39_ends_partial setupL goesL fairL 1 okL ltac:(cbn; lia) (fairL_fair 1 ltac:(lia)).

Theorem C39_complete_partial : forall {E : Env} {HE : EnvOk E} {T : Type} {K : Key T} {vok : T -> Prop} {KO : KeyOk K vok} {B : Boxes T}
    setup scripts sched ths h i ans st u p src,
  SessionOk vok setup scripts ->
  session setup scripts sched = Ok (ths, h) -> nth_error ths i = Some (Ret (ans, st)) ->
  In (u, LMemo p src) (g_sets st) ->
  exists o, nth_error h p = Some o /\ forall f, o = Some f -> forall x, vok x -> (Has f x <-> Member vok u x).
Proof. exact @c39_complete. Qed.
Print Assumptions C39_complete_partial.
(** The state when both goroutines have ended. *)
Definition endL : pool Z (list (answer Z) * gst Z) := Eval vm_compute in okOr ([], []) (session setupL goesL schedL).
Lemma endL_session : session setupL goesL schedL = Ok (fst endL, snd endL). Proof. vm_compute. reflexivity. Qed.
Definition resL : list (answer Z) * gst Z :=
  Eval vm_compute in match nth_error (fst endL) 1 with Some (Ret r) => r | _ => ([], mkG [] []) end.
Lemma resL_end : nth_error (fst endL) 1 = Some (Ret (fst resL, snd resL)). Proof. vm_compute. reflexivity. Qed.
Example C39_complete_case :=
  C39_complete_partial setupL goesL schedL (fst endL) (snd endL) 1 (fst resL) (snd resL) v2 0 (LUnion (LFrozen s14) (LFrozen s23))
    okL endL_session resL_end ltac:(cbn; tauto).
(** A goroutine that calls Next once more after it has answered false stores the empty set: *)
Theorem C39_next_refuted :
  alone (e <~ l_union (LFrozen s12) (LFrozen s12) ;; i <~ l_range e ;;
         '(b1, i) <~ l_next i ;; '(b2, i) <~ l_next i ;; '(b3, i) <~ l_next i ;; x <~ l_has e 1 ;;
         '(b4, i) <~ l_next i ;; y <~ l_has e 1 ;; Ret ([b1; b2; b3; b4], x, y)) = Ok ([true; true; false; false], true, false).
Proof. vm_compute. reflexivity. Qed.
Print Assumptions C39_next_refuted.

Theorem C39_stable_partial : forall {E : Env} {HE : EnvOk E} {T : Type} {K : Key T} {vok : T -> Prop} {KO : KeyOk K vok} {B : Boxes T}
    setup scripts sched1 sched2 ths1 h1 ths2 h2 p f,
  SessionOk vok setup scripts ->
  session setup scripts sched1 = Ok (ths1, h1) -> session setup scripts (sched1 ++ sched2) = Ok (ths2, h2) ->
  nth_error h1 p = Some (Some f) ->
  exists f', nth_error h2 p = Some (Some f') /\ SameMembers vok f f'.
Proof. exact @c39_stable. Qed.
Print Assumptions C39_stable_partial.
Example C39_stable_case ths1 h1 ths2 h2 f :=
  C39_stable_partial setupL goesL (firstn 40 schedL) (skipn 40 schedL) ths1 h1 ths2 h2 0 f okL.
(** The elements of the copy that cell 0 points to. *)
Definition cell0 (r : res (pool Z (list (answer Z) * gst Z))) : res (option (list Z)) :=
  '(_, h) <- r ;; match nth_error h 0 with Some (Some f) => l <- s_elements f ;; Ok (Some l) | _ => Ok None end.
Example C39_stable_run :
  map (fun n => cell0 (session setupL goesL (firstn n schedL))) [0; 2; 5; 40; 242]%nat
  = map Ok [None; None; Some [1; 2; 3; 4]; Some [1; 2; 3; 4]; Some [1; 2; 3; 4]].
Proof. vm_compute. reflexivity. Qed.
(** Without the condition that the sets asked with Has are not differences, the stored copy can change. The main goroutine
    makes d = {1,2} less {2,3} and e = {1,2,3,4} intersection d. The first goroutine iterates over e and stores a copy; then the
    second one, which began to iterate earlier but finds d memoised by now, stores a different one. *)
Definition badSetup : list (call Z) := [CFrozen s12; CFrozen s23; CFrozen s14; CDiff 0 1; CInter 2 3].
Definition badGo1 : list (call Z) := [CRange 4; CNext 0; CNext 0; CNext 0; CNext 0; CRange 3; CNext 1; CNext 1].
Definition badGo2 : list (call Z) := [CRange 4; CNext 0; CNext 0; CNext 0; CNext 0].
Definition cell1 (r : res (pool Z (list (answer Z) * gst Z))) : res (option (list Z)) :=
  '(_, h) <- r ;; match nth_error h 1 with Some (Some f) => l <- s_elements f ;; Ok (Some l) | _ => Ok None end.
Theorem C39_unstable_refuted :
  cell1 (session badSetup [badGo1; badGo2] (repeat 1%nat 2 ++ repeat 0%nat 30)) = Ok (Some [1; 2; 3]) /\
  cell1 (session badSetup [badGo1; badGo2] (repeat 1%nat 2 ++ repeat 0%nat 30 ++ repeat 1%nat 30)) = Ok (Some [1]).
Proof. split; vm_compute; reflexivity. Qed.
Print Assumptions C39_unstable_refuted.
