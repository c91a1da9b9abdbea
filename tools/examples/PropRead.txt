@@ Preamble
Local Open Scope Z_scope.
(** A program on integers of which at most two share a hash: an iterator over set 0 is under way while sets are made of set 0, the
    builder it came from is used again, and a second iterator runs over a new set. *)
Definition okOr0 {A} (r : res A) (d : A) : A := match r with Ok a => a | _ => d end.
Definition talk : session (list Z * list bool * list (option Z)) :=
  SDo _ CNew (SDo _ (CAdd 0 1) (SDo _ (CAdd 0 5) (SDo _ (CAdd 0 2) (SDo _ (CFinish 0)
  (SAsk _ (ARange 0) (fun a => SAsk _ (ANext (okOr0 a O)) (fun n1 => SAsk _ (AValue (okOr0 a O)) (fun v1 =>
   SDo _ (CWith 0 3) (SDo _ (CAdd 0 6) (SDo _ (CWithout 0 5)
  (SAsk _ (ARange 1) (fun b => SAsk _ (ANext (okOr0 b O)) (fun n2 => SAsk _ (ANext (okOr0 a O)) (fun n3 =>
   SAsk _ (AValue (okOr0 b O)) (fun v2 => SAsk _ (AValue (okOr0 a O)) (fun v3 =>
   SDo _ (CCombine (fun _ y => y) 1 2) (SAsk _ (ANext (okOr0 a O)) (fun n4 => SAsk _ (AValue (okOr0 a O)) (fun v4 => SAsk _ (ANext (okOr0 a O)) (fun n5 =>
   SAsk _ (AEqual (veq (Key := K0)) 1 3) (fun e1 => SAsk _ (AEqual (veq (Key := K0)) 0 1) (fun e2 =>
   SAsk _ (ASubset 2 0) (fun e3 => SAsk _ (ASubset 1 0) (fun e4 => SAsk _ (AGet 0 106) (fun g1 => SAsk _ (AGet 0 105) (fun g2 =>
   SEnd _ ([okOr0 v1 0; okOr0 v2 0; okOr0 v3 0; okOr0 v4 0],
           [okOr0 n1 false; okOr0 n2 false; okOr0 n3 false; okOr0 n4 false; okOr0 n5 true; okOr0 e1 false; okOr0 e2 true; okOr0 e3 false; okOr0 e4 true],
           [okOr0 g1 (Some 0); okOr0 g2 None]))))))))))))))))))))))))))).
Lemma talk_ok : sessionOk fewZ talk.
Proof.
  unfold sessionOk, talk. cbn [allCmds].
  repeat match goal with
  | |- True => exact Logic.I
  | |- _ /\ _ => split
  | |- cmdOk (CCombine _ _ _) => apply (cfok_rhs (KO := fewOk))
  | |- cmdOk _ => first [exact Logic.I | split; [discriminate|reflexivity]]
  | |- forall _, _ => intro
  end.
Qed.
(** A loop that counts; the body of a loop in a program with builders, and of one in a program with sets: it makes sets of set 0, also
    with what it is given, and counts the elements of a set in a loop of its own. *)
Definition count (i : nat) : session nat := andThen (rangeLoop 9 i (fun _ (_ : Z) n => SEnd _ (S n)) O) (fun r => SEnd _ (snd r)).
Definition body1 (it : nat) (v : Z) (n : nat) : session nat :=
  SDo _ (CAdd 0 v) (SDo _ (CAdd 0 17) (SDo _ (CRemove 0 v) (SDo _ (CRemove 0 5) (SDo _ (CFinish 0) (andThen (count 1) (fun m => SEnd _ (n + m)%nat)))))).
Definition body2 (it : nat) (v : Z) (n : nat) : session nat :=
  SDo _ (CWith 0 (v + 100)) (SDo _ (CWithout 0 v) (SDo _ (CWith 1 3) (andThen (count 2) (fun m => SEnd _ (n + m)%nat)))).
Lemma count_spares it i : spares it (count i).
Proof. apply spares_andThen; [|intros; exact Logic.I]. apply spares_rangeLoop. intros. exact Logic.I. Qed.
Lemma count_all P vok i : allCmds vok P (count i).
Proof. apply andThen_all; [|intros; exact Logic.I]. apply rangeLoop_all. intros. exact Logic.I. Qed.
Lemma body1_spares it v n : spares it (body1 it v n).
Proof. cbn [body1 spares]. apply spares_andThen; [apply count_spares|intros; exact Logic.I]. Qed.
Lemma body2_spares it v n : spares it (body2 it v n).
Proof. cbn [body2 spares]. apply spares_andThen; [apply count_spares|intros; exact Logic.I]. Qed.
Lemma body1_ok it v n : anyZ v -> sessionOk anyZ (body1 it v n).
Proof. intros _. unfold sessionOk, body1. cbn [allCmds]. do 5 (split; [exact Logic.I|]). apply andThen_all; [apply count_all|intros; exact Logic.I]. Qed.
Lemma body1_builds it v n : anyZ v -> buildsOnly anyZ (body1 it v n).
Proof. intros _. unfold buildsOnly, body1. cbn [allCmds]. do 5 (split; [reflexivity|]). apply andThen_all; [apply count_all|intros; exact Logic.I]. Qed.
Lemma body2_ok it v n : fewZ v -> sessionOk fewZ (body2 it v n).
Proof.
  intros Hv. unfold sessionOk, body2. cbn [allCmds cmdOk]. unfold fewZ in *. split; [|split; [exact Hv|split; [split; [discriminate|reflexivity]|]]].
  - replace (v + 100) with (v + 1 * 100) by lia. rewrite Z.mod_add by lia. exact Hv.
  - apply andThen_all; [apply count_all|intros; exact Logic.I].
Qed.
Definition build1 : list (cmd Z) := [CNew; CAdd 0 1; CAdd 0 5; CAdd 0 9; CAdd 0 13; CAdd 0 2; CFinish 0].
Definition build2 : list (cmd Z) := [CNew; CAdd 0 1; CAdd 0 5; CAdd 0 2; CFinish 0; CWithout 0 5].
Lemma build1_ok : progOk anyZ build1. Proof. anyOk. Qed.
Lemma build2_ok : progOk fewZ build2. Proof. repeat (constructor; [first [exact Logic.I | split; [discriminate|reflexivity]]|]). constructor. Qed.
@@ C69_reads
(** A state with 1, 5, 9, 13 and 2 in a set, and an iterator in its middle. *)
Definition st1 : state := reached dbl build1.
Definition its1 : list (hiter (T := Z)) := snd (answerH (ANext 0) st1 (snd (answerH (ARange 0) st1 []))).
Example C69_reads_case := C69_reads (ANext 0) st1 its1.
Example C69_reads_run : fst (fst (answerH (ANext 0) st1 its1)) = Ok true /\ fst (fst (answerH (AValue 0) st1 its1)) = Ok 1%Z /\
  fst (fst (answerH (AEqual (veq (Key := K0)) 0 0) st1 its1)) = Ok true.
Proof. vm_compute. repeat split. Qed.
@@ C69_values_partial
Example C69_values_case : resultH dbl talk = resultP talk.
Proof. apply (C69_values_partial (KO := fewOk)); [exact talk_ok|]. vm_compute. reflexivity. Qed.
Example C69_values_run : resultH dbl talk = ([1; 1; 5; 2]%Z, [true; true; true; true; false; true; false; true; false], [None; Some 5%Z]).
Proof. vm_compute. reflexivity. Qed.
@@ C69_hash_partial
Example C69_hash_case := C69_hash_partial (KO := fewOk) (grow := dbl) talk few_noTriple talk_ok.
@@ C69_builders_partial
(** Integers that share hashes. *)
Lemma build1_session_ok : sessionOk anyZ (afterCmds build1 (rangeLoop 9 0 body1 O)).
Proof. apply (rangeLoop_ok (vok := anyZ)); [exact build1_ok|exact body1_ok]. Qed.
Lemma build1_session_builds : buildsOnly anyZ (afterCmds build1 (rangeLoop 9 0 body1 O)).
Proof. unfold buildsOnly, build1, afterCmds. cbn [fold_right allCmds]. do 7 (split; [reflexivity|]). apply rangeLoop_all. exact body1_builds. Qed.
Example C69_builders_case := C69_builders_partial (KO := K0_ok) (grow := dbl) _ build1_session_ok build1_session_builds.
Example C69_builders_run : resultH dbl (afterCmds build1 (rangeLoop 9 0 body1 O)) = ([1; 5; 9; 13; 2]%Z, 5).
Proof. vm_compute. reflexivity. Qed.
@@ C69_loop_values_partial
Example C69_loop_values_case : fst (resultH dbl (afterCmds build2 (rangeLoop 9 0 body2 O))) = [1; 5; 2]%Z.
Proof.
  apply (C69_loop_values_partial (KO := fewOk)); [exact build2_ok|exact body2_ok|exact body2_spares|vm_compute; reflexivity|vm_compute; reflexivity|cbn; lia].
Qed.
@@ C69_loop_hash_partial
Example C69_loop_hash_case := C69_loop_hash_partial (KO := fewOk) (grow := dbl) build2 0 9 body2 O few_noTriple build2_ok body2_ok body2_spares.
Example C69_loop_hash_run : t_range (nth 0 (ps_sets (prun build2 pinitial)) emptyTree) = Ok [1; 5; 2]%Z /\
  resultH dbl (afterCmds build2 (rangeLoop 9 0 body2 O)) = ([1; 5; 2]%Z, 9).
Proof. vm_compute. repeat split. Qed.
@@ C69_loop_builders_partial
Example C69_loop_builders_case :=
  C69_loop_builders_partial (KO := K0_ok) (grow := dbl) build1 0 9 body1 O build1_ok body1_ok body1_spares eq_refl body1_builds.
@@ C69_refuted
(** In general it is false, whatever the growth policy of append: where With overwrites a slot that a set uses (C18), a loop over that
    set sees the new element instead of its own. Set 0 is {1, 5, 9}, in one bucket with a spare slot; set 1 is set 0 with 17; the
    body of the loop over set 1 adds 21 to set 0. *)
Definition body3 (it : nat) (v : Z) (n : unit) : session unit := SDo _ (CWith 0 21%Z) (SEnd _ n).
Definition wrong : session (list Z * unit) := afterCmds (removed ++ [CWith 0 17%Z]) (rangeLoop 9 1 body3 tt).
Lemma wrong_run grow : resultH grow wrong = ([1; 5; 9; 21]%Z, tt).
Proof.
  assert (Ha : forall cs st (s : session (list Z * unit)), sessionH grow (afterCmds cs s) st [] = sessionH grow s (run grow cs st) []).
  { induction cs as [|c cs IH]; intros st s; [reflexivity|apply IH]. }
  assert (Hs : run grow (removed ++ [CWith 0 17%Z]) initial = run grow [CWith 0 17%Z] (removedState (grow 3 4))).
  { rewrite run_app. f_equal. }
  unfold resultH, wrong. rewrite Ha, Hs. destruct (grow 3 4) as [|[|[|[|c]]]]; vm_compute; reflexivity.
Qed.
Lemma wrong_ok : sessionOk anyZ wrong.
Proof. apply (rangeLoop_ok (vok := anyZ)); [anyOk|]. intros. split; exact Logic.I. Qed.
Theorem C69_refuted : forall grow : nat -> nat -> nat,
  ~ (forall (E : Env) (EO : EnvOk E) (T : Type) (K : Key T) (vok : T -> Prop) (KO : KeyOk K vok) (A : Type) (s : session (T := T) A),
       sessionOk vok s -> resultH grow s = resultP s).
Proof.
  intros grow H. specialize (H E0 E0_ok Z K0 anyZ K0_ok _ wrong wrong_ok). rewrite wrong_run in H. vm_compute in H. discriminate H.
Qed.
Print Assumptions C69_refuted.
Example C69_refuted_run : resultP wrong = ([1; 5; 9; 17]%Z, tt).
Proof. vm_compute. reflexivity. Qed.
