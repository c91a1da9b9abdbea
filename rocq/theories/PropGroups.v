(** * PropGroups: the laws of SetGroupBy (C82).

    Generated by tools/genprops.py from SpecGroups.v and tools/examples/PropGroups.txt.
    Every theorem is followed by a case that meets its hypotheses. *)
From Verif Require Import Base Bits Env EnvFacts Node Iter Tree SetApi MapApi Reach Spec SpecGroups ExampleData.

(** Groups of sA by the remainder by 3; the key 102 is equal to 2 in K0. *)
Definition by3 (v : Z) : Z := (v mod 3)%Z.
Definition gM : gomap Z (set Z) := Eval vm_compute in okOr m_empty (s_groupBy sA by3).
Lemma gM_run : s_groupBy sA by3 = Ok gM. Proof. vm_compute. reflexivity. Qed.
Definition gL : list (Z * set Z) := Eval vm_compute in okOr [] (m_entries gM).
Lemma gL_run : m_entries gM = Ok gL. Proof. vm_compute. reflexivity. Qed.
Definition g2 : set Z := Eval vm_compute in match m_get gM 102%Z with Ok (Some g) => g | _ => s_empty end.
Lemma g2_run : m_get gM 102%Z = Ok (Some g2). Proof. vm_compute. reflexivity. Qed.
Definition gU : set Z := Eval vm_compute in okOr s_empty (s_unionN (map snd gL)).
Lemma gU_run : s_unionN (map snd gL) = Ok gU. Proof. vm_compute. reflexivity. Qed.

Theorem C82_where : forall {E : Env} {HE : EnvOk E} {T : Type} {X : Type} {K : Key T} {KX : Key X} {vok : T -> Prop} {kok : X -> Prop} {KO : KeyOk K vok} {KOX : KeyOk KX kok}
    (s : set T) (key : T -> X) m k g,
  SetReach vok s -> (forall v, vok v -> kok (key v)) -> s_groupBy s key = Ok m -> kok k -> m_get m k = Ok (Some g) ->
  exists r, s_where s (fun e => veq (key e) k) = Ok r /\ s_equal g r = Ok true /\ s_isSubsetOf g s = Ok true /\ s_isEmpty g = false.
Proof. exact @c82_where. Qed.
Print Assumptions C82_where.
Example C82_where_case := C82_where (kok := anyZ) sA by3 gM 102%Z g2 sA_reach (fun _ _ => Logic.I) gM_run Logic.I g2_run.

Theorem C82_keys : forall {E : Env} {HE : EnvOk E} {T : Type} {X : Type} {K : Key T} {KX : Key X} {vok : T -> Prop} {kok : X -> Prop} {KO : KeyOk K vok} {KOX : KeyOk KX kok}
    (s : set T) (key : T -> X) m,
  SetReach vok s -> (forall v, vok v -> kok (key v)) -> s_groupBy s key = Ok m ->
  exists ks r, m_keys m = Ok ks /\ s_map s key = Ok r /\ s_equal ks r = Ok true.
Proof. exact @c82_keys. Qed.
Print Assumptions C82_keys.
Example C82_keys_case := C82_keys (kok := anyZ) sA by3 gM sA_reach (fun _ _ => Logic.I) gM_run.

Theorem C82_count : forall {E : Env} {HE : EnvOk E} {T : Type} {X : Type} {K : Key T} {KX : Key X} {vok : T -> Prop} {kok : X -> Prop} {KO : KeyOk K vok} {KOX : KeyOk KX kok}
    (s : set T) (key : T -> X) m l,
  SetReach vok s -> (forall v, vok v -> kok (key v)) -> s_groupBy s key = Ok m -> m_entries m = Ok l ->
  s_count s = fold_right Z.add 0%Z (map (fun kg => s_count (snd kg)) l).
Proof. exact @c82_count. Qed.
Print Assumptions C82_count.
Example C82_count_case := C82_count (kok := anyZ) sA by3 gM gL sA_reach (fun _ _ => Logic.I) gM_run gL_run.
Example C82_count_run : (s_count sA, map (fun kg => (fst kg, s_count (snd kg))) gL) = (5, [(1, 1); (0, 2); (2, 2)])%Z.
Proof. vm_compute. reflexivity. Qed.

Theorem C82_union : forall {E : Env} {HE : EnvOk E} {T : Type} {X : Type} {K : Key T} {KX : Key X} {vok : T -> Prop} {kok : X -> Prop} {KO : KeyOk K vok} {KOX : KeyOk KX kok}
    (s : set T) (key : T -> X) m l u,
  SetReach vok s -> (forall v, vok v -> kok (key v)) -> s_groupBy s key = Ok m -> m_entries m = Ok l ->
  s_unionN (map snd l) = Ok u -> s_equal u s = Ok true.
Proof. exact @c82_union. Qed.
Print Assumptions C82_union.
Example C82_union_case : s_equal gU sA = Ok true := C82_union (kok := anyZ) sA by3 gM gL gU sA_reach (fun _ _ => Logic.I) gM_run gL_run gU_run.
Example C82_union_run : s_elements gU = Ok [9; 1; 5; 3; 2]%Z.
Proof. vm_compute. reflexivity. Qed.
