(** * PropMapLaws: the laws of map algebra (C75).

    Generated by tools/genprops.py from SpecMapLaws.v and tools/examples/PropMapLaws.txt.
    Every theorem is followed by a case that meets its hypotheses. *)
From Verif Require Import Base Bits Env EnvFacts Node Iter Tree SetApi MapApi Reach Spec SpecMapLaws ExampleData PropMap.

Definition rhoM (i : nat) : gomap Z Z := match i with 0 => mA | _ => mB end%nat.
Lemma rhoM_reach i : MapReach anyZ anyZ (rhoM i).
Proof. destruct i as [|i]; [apply mA_reach|apply mB_reach]. Qed.
(** The entries of a map, None for a panic. *)
Definition shownM (r : res (gomap Z Z)) : option (list (Z * Z)) := match r with Ok m => match m_entries m with Ok l => Some l | _ => None end | _ => None end.
Notation v0 := (@MVar Z Z 0). Notation v1 := (@MVar Z Z 1).
(** The entries of the first map whose value is below 30, updated by those of the second with keys 2 and 7, and then key 9 is set. *)
Definition eM : mexp Z Z := MWith 9%Z 90%Z (MUpdate (MWhere (fun _ v => (v <? 30)%Z) v0) (MProject [2; 7]%Z v1)).
Lemma eM_proper : Proper anyZ anyZ eM.
Proof. repeat split; auto. Qed.
(** Without 5, then with 6; and the other way round. *)
Definition eL : mexp Z Z := MWithout 5%Z (MWith 6%Z 60%Z (MUpdate v0 v1)).
Definition eR : mexp Z Z := MWith 6%Z 60%Z (MWithout 5%Z (MUpdate v0 v1)).
Lemma eL_proper : Proper anyZ anyZ eL.
Proof. repeat split; auto. Qed.
Lemma eR_proper : Proper anyZ anyZ eR.
Proof. repeat split; auto. Qed.
Definition mL : gomap Z Z := Eval vm_compute in okOr m_empty (mrun rhoM eL).
Definition mR : gomap Z Z := Eval vm_compute in okOr m_empty (mrun rhoM eR).
Lemma mL_run : mrun rhoM eL = Ok mL.
Proof. vm_compute. reflexivity. Qed.
Lemma mR_run : mrun rhoM eR = Ok mR.
Proof. vm_compute. reflexivity. Qed.

Theorem C75_meaning : forall {E : Env} {HE : EnvOk E} {X : Type} {V : Type} {KX : Key X} {kok : X -> Prop} {valok : V -> Prop} {KO : KeyOk KX kok} {ZV : Zero V}
    rho F e,
  (forall i, MapReach kok valok (rho i)) -> (forall i, MapAnswers kok (rho i) (F i)) -> Proper kok valok e ->
  mrun rho e = Panic \/
  exists r, mrun rho e = Ok r /\ MapReach kok valok r /\ MapAnswers kok r (fun w => mden (fun i => F i w) w e).
Proof. exact @c75_meaning. Qed.
Print Assumptions C75_meaning.
Lemma rhoM_answers : exists F, forall i, MapAnswers anyZ (rhoM i) (F i).
Proof.
  destruct (C21_answers mA mA_reach) as (F & HF & _), (C21_answers mB mB_reach) as (G & HG & _).
  exists (fun i => match i with 0 => F | _ => G end%nat). intros [|i]; assumption.
Qed.
Example C75_meaning_case := fun F HF => C75_meaning rhoM F eM rhoM_reach HF eM_proper.
Example C75_meaning_run : (shownM (Ok mA), shownM (Ok mB), shownM (mrun rhoM eM)) =
  (Some [(1, 10); (5, 50); (9, 90); (102, 22)], Some [(2, 200); (6, 60); (7, 70)], Some [(1, 10); (9, 90); (7, 70); (2, 200)])%Z.
Proof. vm_compute. reflexivity. Qed.

Theorem C75_laws : forall {E : Env} {HE : EnvOk E} {X : Type} {V : Type} {KX : Key X} {KV : Key V} {kok : X -> Prop} {valok : V -> Prop} {KO : KeyOk KX kok} {KOV : KeyOk KV valok} {ZV : Zero V}
    rho e1 e2 r1 r2,
  (forall F w, kok w -> mden F w e1 = mden F w e2) -> (forall i, MapReach kok valok (rho i)) ->
  Proper kok valok e1 -> Proper kok valok e2 -> mrun rho e1 = Ok r1 -> mrun rho e2 = Ok r2 -> m_equal r1 r2 = Ok true.
Proof. exact @c75_laws. Qed.
Print Assumptions C75_laws.
Lemma eLR_same F w : anyZ w -> mden F w eL = mden F w eR.
Proof. intros Hw. exact (proj1 (proj2 (c75_apart (kok := anyZ) F w 5%Z 6%Z 0%Z 60%Z (MUpdate v0 v1) Hw Logic.I Logic.I eq_refl))). Qed.
Example C75_laws_case : m_equal mL mR = Ok true := C75_laws rhoM eL eR mL mR eLR_same rhoM_reach eL_proper eR_proper mL_run mR_run.

Theorem C75_only : forall {E : Env} {HE : EnvOk E} {X : Type} {V : Type} {KX : Key X} {KV : Key V} {kok : X -> Prop} {valok : V -> Prop} {KO : KeyOk KX kok} {ZV : Zero V}
    e1 e2 F w r1 r2,
  kok w -> (forall i v, F i = Some v -> valok v) -> Proper kok valok e1 -> Proper kok valok e2 ->
  match mden F w e1, mden F w e2 with Some x, Some y => veq x y = false | None, None => False | _, _ => True end ->
  mrun (fun i => single_map w (F i)) e1 = Ok r1 -> mrun (fun i => single_map w (F i)) e2 = Ok r2 -> m_equal r1 r2 = Ok false.
Proof. exact @c75_only. Qed.
Print Assumptions C75_only.
(** Update is not commutative: for key 3, with the values 30 and 31. *)
Definition fO (i : nat) : option Z := match i with O => Some 30%Z | _ => Some 31%Z end.
Definition mO (i : nat) : gomap Z Z := single_map 3%Z (fO i).
Definition mO1 : gomap Z Z := Eval vm_compute in okOr m_empty (mrun mO (MUpdate v0 v1)).
Definition mO2 : gomap Z Z := Eval vm_compute in okOr m_empty (mrun mO (MUpdate v1 v0)).
Lemma mO1_run : mrun mO (MUpdate v0 v1) = Ok mO1.
Proof. vm_compute. reflexivity. Qed.
Lemma mO2_run : mrun mO (MUpdate v1 v0) = Ok mO2.
Proof. vm_compute. reflexivity. Qed.
Example C75_only_case : m_equal mO1 mO2 = Ok false :=
  C75_only (MUpdate v0 v1) (MUpdate v1 v0) fO 3%Z mO1 mO2 Logic.I (fun _ _ _ => Logic.I) (conj Logic.I Logic.I) (conj Logic.I Logic.I) eq_refl mO1_run mO2_run.

Theorem C75_identities : forall {X : Type} {V : Type} {KX : Key X}
    F (w : X) (a b c : mexp X V),
  mden F w (MUpdate (MUpdate a b) c) = mden F w (MUpdate a (MUpdate b c)) /\
  mden F w (MUpdate a a) = mden F w a /\
  mden F w (MUpdate MEmpty a) = mden F w a /\ mden F w (MUpdate a MEmpty) = mden F w a /\
  (forall k v, mden F w (MWith k v a) = mden F w (MUpdate a (MWith k v MEmpty))) /\
  (forall k v, mden F w (MWithout k (MWith k v a)) = mden F w (MWithout k a)) /\
  (forall k v u, mden F w (MWith k v (MWith k u a)) = mden F w (MWith k v a)) /\
  (forall k, mden F w (MWithout k (MWithout k a)) = mden F w (MWithout k a)) /\
  (forall ks, mden F w (MProject ks (MUpdate a b)) = mden F w (MUpdate (MProject ks a) (MProject ks b))) /\
  (forall f ks, mden F w (MProject ks (MMerge f a b)) = mden F w (MMerge f (MProject ks a) (MProject ks b))) /\
  (forall ks ls, mden F w (MProject ks (MProject ls a)) = mden F w (MProject ls (MProject ks a))) /\
  (forall p, mden F w (MUpdate (MWhere p a) (MWhere (fun k v => negb (p k v)) a)) = mden F w a) /\
  (forall p q, mden F w (MWhere p (MWhere q a)) = mden F w (MWhere (fun k v => q k v && p k v) a)) /\
  (forall f, mden F w (MMap f (MUpdate a b)) = mden F w (MUpdate (MMap f a) (MMap f b))) /\
  (forall f g, mden F w (MMap f (MMap g a)) = mden F w (MMap (fun k v => f k (g k v)) a)) /\
  mden F w (MMap (fun _ v => v) a) = mden F w a /\
  mden F w (MMerge (fun _ x _ => x) a b) = mden F w (MUpdate b a) /\
  mden F w (MMerge (fun _ _ y => y) a b) = mden F w (MUpdate a b) /\
  (forall f, mden F w (MMerge f a b) = mden F w (MMerge (fun k x y => f k y x) b a)).
Proof. exact @c75_identities. Qed.
Print Assumptions C75_identities.
Example C75_identities_case := C75_identities (fun i => Some (Z.of_nat i)) 5%Z v0 v1 eM.

Theorem C75_apart : forall {X : Type} {V : Type} {KX : Key X} {kok : X -> Prop} {KO : KeyOk KX kok}
    F (w k j : X) v u (a : mexp X V),
  kok w -> kok k -> kok j -> veq k j = false ->
  mden F w (MWith k v (MWith j u a)) = mden F w (MWith j u (MWith k v a)) /\
  mden F w (MWithout k (MWith j u a)) = mden F w (MWith j u (MWithout k a)) /\
  mden F w (MWithout k (MWithout j a)) = mden F w (MWithout j (MWithout k a)).
Proof. exact @c75_apart. Qed.
Print Assumptions C75_apart.
Example C75_apart_case := C75_apart (fun i => Some (Z.of_nat i)) 5%Z 5%Z 6%Z 50%Z 60%Z v0 Logic.I Logic.I Logic.I eq_refl.
