@@ Preamble
Definition rhoM (i : nat) : gomap Z Z := match i with 0 => mA | _ => mB end%nat.
Lemma rhoM_reach i : MapReach anyZ anyZ (rhoM i).
Proof. destruct i as [|i]; [apply mA_reach|apply mB_reach]. Qed.
(** The entries of a map, None for a panic. *)
Definition shownM (r : res (gomap Z Z)) : option (list (Z * Z)) := match r with Ok m => match m_entries m with Ok l => Some l | _ => None end | _ => None end.
Notation v0 := (@MVar Z Z 0). Notation v1 := (@MVar Z Z 1).
(** The entries of the first map whose value is below 30, updated by those of the second with keys 2 and 7, and then key 9 is set. *)
Definition eM : mexp Z Z := MWith 9%Z 90%Z (MUpdate (MWhere (fun _ v => (v <? 30)%Z) v0) (MProject [2; 7]%Z v1)).
Lemma eM_proper : Proper anyZ anyZ eM.
Proof. repeat split; auto. Qed.
(** Without 5, then with 6; and the other way round. *)
Definition eL : mexp Z Z := MWithout 5%Z (MWith 6%Z 60%Z (MUpdate v0 v1)).
Definition eR : mexp Z Z := MWith 6%Z 60%Z (MWithout 5%Z (MUpdate v0 v1)).
Lemma eL_proper : Proper anyZ anyZ eL.
Proof. repeat split; auto. Qed.
Lemma eR_proper : Proper anyZ anyZ eR.
Proof. repeat split; auto. Qed.
Definition mL : gomap Z Z := Eval vm_compute in okOr m_empty (mrun rhoM eL).
Definition mR : gomap Z Z := Eval vm_compute in okOr m_empty (mrun rhoM eR).
Lemma mL_run : mrun rhoM eL = Ok mL.
Proof. vm_compute. reflexivity. Qed.
Lemma mR_run : mrun rhoM eR = Ok mR.
Proof. vm_compute. reflexivity. Qed.

@@ C75_meaning
Lemma rhoM_answers : exists F, forall i, MapAnswers anyZ (rhoM i) (F i).
Proof.
  destruct (C21_answers mA mA_reach) as (F & HF & _), (C21_answers mB mB_reach) as (G & HG & _).
  exists (fun i => match i with 0 => F | _ => G end%nat). intros [|i]; assumption.
Qed.
Example C75_meaning_case := fun F HF => C75_meaning rhoM F eM rhoM_reach HF eM_proper.
Example C75_meaning_run : (shownM (Ok mA), shownM (Ok mB), shownM (mrun rhoM eM)) =
  (Some [(1, 10); (5, 50); (9, 90); (102, 22)], Some [(2, 200); (6, 60); (7, 70)], Some [(1, 10); (9, 90); (7, 70); (2, 200)])%Z.
Proof. vm_compute. reflexivity. Qed.

@@ C75_laws
Lemma eLR_same F w : anyZ w -> mden F w eL = mden F w eR.
Proof. intros Hw. exact (proj1 (proj2 (c75_apart (kok := anyZ) F w 5%Z 6%Z 0%Z 60%Z (MUpdate v0 v1) Hw Logic.I Logic.I eq_refl))). Qed.
Example C75_laws_case : m_equal mL mR = Ok true := C75_laws rhoM eL eR mL mR eLR_same rhoM_reach eL_proper eR_proper mL_run mR_run.

@@ C75_only
(** Update is not commutative: for key 3, with the values 30 and 31. *)
Definition fO (i : nat) : option Z := match i with O => Some 30%Z | _ => Some 31%Z end.
Definition mO (i : nat) : gomap Z Z := single_map 3%Z (fO i).
Definition mO1 : gomap Z Z := Eval vm_compute in okOr m_empty (mrun mO (MUpdate v0 v1)).
Definition mO2 : gomap Z Z := Eval vm_compute in okOr m_empty (mrun mO (MUpdate v1 v0)).
Lemma mO1_run : mrun mO (MUpdate v0 v1) = Ok mO1.
Proof. vm_compute. reflexivity. Qed.
Lemma mO2_run : mrun mO (MUpdate v1 v0) = Ok mO2.
Proof. vm_compute. reflexivity. Qed.
Example C75_only_case : m_equal mO1 mO2 = Ok false :=
  C75_only (MUpdate v0 v1) (MUpdate v1 v0) fO 3%Z mO1 mO2 Logic.I (fun _ _ _ => Logic.I) (conj Logic.I Logic.I) (conj Logic.I Logic.I) eq_refl mO1_run mO2_run.

@@ C75_identities
Example C75_identities_case := C75_identities (fun i => Some (Z.of_nat i)) 5%Z v0 v1 eM.

@@ C75_apart
Example C75_apart_case := C75_apart (fun i => Some (Z.of_nat i)) 5%Z 5%Z 6%Z 50%Z 60%Z v0 Logic.I Logic.I Logic.I eq_refl.
