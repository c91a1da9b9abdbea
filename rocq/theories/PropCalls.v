(** * PropCalls: calls of callbacks (C55).

    Generated by tools/genprops.py from SpecCalls.v and tools/examples/PropCalls.txt.
    Every theorem is followed by a case that meets its hypotheses. *)
From Coq Require Import Sorting.Permutation.
From Verif Require Import Base Bits Env EnvFacts Node NodeWf Iter Tree TreeFacts SetApi MapApi GroupFacts Reach IntSet IntFacts Spec SpecSet SpecMap SpecInt Calls CallFacts SpecCalls ExampleData PropInt.

Local Open Scope Z_scope.

(** Callbacks: one that keeps a log of the questions; one that says yes to every second question; one that numbers its answers. *)
Definition logs {Q R} (p : Q -> R) (w : list Q) (q : Q) : R * list Q := (p q, w ++ [q]).
Definition second {Q} (w : nat) (q : Q) : bool * nat := (Nat.even w, S w).
Definition numbers {Q} (w : Z) (q : Q) : Z * Z := (w, w + 1).
Definition sum (l : list Z) : Z := fold_right Z.add 0 l.
Definition inOrder {A W} (r : res (A * W)) (els : A -> res (list Z)) : res (list Z * W) :=
  '(a, w) <- r ;; l <- els a ;; Ok (l, w).

Local Open Scope nat_scope.

Theorem C55_where : forall {E : Env} {HE : EnvOk E} {T : Type} {K : Key T} {vok : T -> Prop} {KO : KeyOk K vok} {W : Type}
    (s : set T) (pred : W -> T -> bool * W) w,
  SetReach vok s ->
  exists l tr w' p r, s_elements s = Ok l /\ Permutation (map fst tr) l /\ follows pred w tr w' /\ agrees p tr /\
    s_where s p = Ok r /\ s_whereS s pred w = Ok (r, w') /\ (forall e, Holds r e <-> In (e, true) tr).
Proof. exact @c55_where. Qed.
Print Assumptions C55_where.
Example C55_where_case := C55_where sAB (second (Q := Z)) 0%nat sAB_reach.
Example C55_where_run : inOrder (s_whereS sAB second 0%nat) s_elements = Ok ([4; 5; 6; 203]%Z, 7%nat).
Proof. vm_compute. reflexivity. Qed.
Example C55_where_log_run : inOrder (s_whereS sAB (logs Z.even) []) s_elements = Ok ([4; 102; 6]%Z, [203; 102; 6; 1; 5; 9; 4]%Z).
Proof. vm_compute. reflexivity. Qed.

Theorem C55_reduce : forall {E : Env} {HE : EnvOk E} {T : Type} {K : Key T} {vok : T -> Prop} {KO : KeyOk K vok} {W : Type}
    (s : set T) (red : W -> list T -> T * W) w,
  SetReach vok s ->
  exists l tr w' o, s_elements s = Ok l /\ follows red w tr w' /\ s_reduceS s red w = Ok (o, w') /\
    (forall p, agrees p tr -> s_reduce s p = Ok o) /\ (forall q a, In (q, a) tr -> q <> []) /\
    match o with
    | None => l = [] /\ tr = []
    | Some t => Permutation (concat (map fst tr) ++ [t]) (l ++ map snd tr) /\ exists tr' q, tr = tr' ++ [(q, t)]
    end.
Proof. exact @c55_reduce. Qed.
Print Assumptions C55_reduce.
Example C55_reduce_case := C55_reduce sAB (logs sum) [] sAB_reach.
Example C55_reduce_run : s_reduceS sAB (logs sum) [] = Ok (Some 330%Z, [[203]; [102; 6]; [108; 203]; [1; 5; 9]; [4]; [4; 15]; [19; 311]]%Z ++ repeat [330%Z] 20).
Proof. vm_compute. reflexivity. Qed.

Theorem C55_reduce2 : forall {E : Env} {HE : EnvOk E} {T : Type} {K : Key T} {vok : T -> Prop} {KO : KeyOk K vok} {W : Type}
    dflt (s : set T) (op : W -> T * T -> T * W) w,
  SetReach vok s ->
  exists l tr w' o, s_elements s = Ok l /\ follows op w tr w' /\ s_reduce2S dflt s op w = Ok (o, w') /\
    match o with
    | None => l = [] /\ tr = []
    | Some t => S (length tr) = length l /\
        Permutation (flat_map (fun q => [fst q; snd q]) (map fst tr) ++ [t]) (l ++ map snd tr)
    end.
Proof. exact @c55_reduce2. Qed.
Print Assumptions C55_reduce2.
Example C55_reduce2_case := C55_reduce2 0%Z sAB (logs (fun q => fst q - snd q)%Z) [] sAB_reach.
Example C55_reduce2_run : s_reduce2S 0%Z sAB (logs (fun q => fst q - snd q)%Z) [] = Ok (Some 124, [(102, 6); (96, 203); (1, 5); (-4, 9); (4, -13); (17, -107)])%Z.
Proof. vm_compute. reflexivity. Qed.

Theorem C55_map : forall {E : Env} {HE : EnvOk E} {T : Type} {U : Type} {K : Key T} {vok : T -> Prop} {KO : KeyOk K vok} {KU : Key U} {uok : U -> Prop} {KUO : KeyOk KU uok} {W : Type}
    (s : set T) (f : W -> T -> U * W) w,
  SetReach vok s -> (forall w e, Holds s e -> uok (fst (f w e))) ->
  exists l tr w' p r, s_elements s = Ok l /\ map fst tr = l /\ follows f w tr w' /\ agrees p tr /\
    s_map s p = Ok r /\ s_mapS s f w = Ok (r, w').
Proof. exact @c55_map. Qed.
Print Assumptions C55_map.
Example C55_map_case := C55_map (uok := anyZ) sAB (numbers (Q := Z)) 0%Z sAB_reach (fun _ _ _ => Logic.I).
Example C55_map_run : inOrder (s_mapS sAB numbers 7%Z) s_elements = Ok ([8; 12; 9; 13; 10; 7; 11], 14)%Z.
Proof. vm_compute. reflexivity. Qed.

Theorem C55_groupBy : forall {E : Env} {HE : EnvOk E} {T : Type} {U : Type} {K : Key T} {vok : T -> Prop} {KO : KeyOk K vok} {KU : Key U} {uok : U -> Prop} {KUO : KeyOk KU uok} {W : Type}
    (s : set T) (key : W -> T -> U * W) w,
  SetReach vok s -> (forall w e, Holds s e -> uok (fst (key w e))) ->
  exists l tr w' p m, s_elements s = Ok l /\ map fst tr = l /\ follows key w tr w' /\ agrees p tr /\
    s_groupBy s p = Ok m /\ s_groupByS s key w = Ok (m, w').
Proof. exact @c55_groupBy. Qed.
Print Assumptions C55_groupBy.
Example C55_groupBy_case := C55_groupBy (uok := anyZ) sA (logs (fun e => e mod 2)%Z) [] sA_reach (fun _ _ _ => Logic.I).
Example C55_groupBy_run :
  ('(m, w) <- s_groupByS sA (logs (fun e => e mod 2)%Z) [] ;; l <- m_entries m ;; Ok (map fst l, w)) = Ok ([1; 0], [1; 5; 9; 2; 3])%Z.
Proof. vm_compute. reflexivity. Qed.

Theorem C55_mapWhere : forall {E : Env} {HE : EnvOk E} {X : Type} {V : Type} {KX : Key X} {ZV : Zero V} {kok : X -> Prop} {KXO : KeyOk KX kok} {valok : V -> Prop} {W : Type}
    (m : gomap X V) (pred : W -> X * V -> bool * W) w,
  MapReach kok valok m ->
  exists l tr w' p r, m_entries m = Ok l /\ map fst tr = l /\ follows pred w tr w' /\ agrees p tr /\
    m_where m (fun k v => p (k, v)) = Ok r /\ m_whereS m pred w = Ok (r, w') /\
    (forall k v, Entry r k v <-> In (k, v, true) tr).
Proof. exact @c55_mapWhere. Qed.
Print Assumptions C55_mapWhere.
Example C55_mapWhere_case := C55_mapWhere mA (second (Q := Z * Z)) 0%nat mA_reach.
Example C55_mapWhere_run : ('(m, w) <- m_whereS mA second 0%nat ;; l <- m_entries m ;; Ok (l, w)) = Ok ([(1, 10); (9, 90)]%Z, 4%nat).
Proof. vm_compute. reflexivity. Qed.

Theorem C55_mapMap : forall {E : Env} {HE : EnvOk E} {X : Type} {V : Type} {U : Type} {KX : Key X} {ZV : Zero V} {ZU : Zero U} {kok : X -> Prop} {KXO : KeyOk KX kok} {valok : V -> Prop} {W : Type}
    (m : gomap X V) (f : W -> X * V -> U * W) w,
  MapReach kok valok m ->
  exists l tr w' p r, m_entries m = Ok l /\ map fst tr = l /\ follows f w tr w' /\ agrees p tr /\
    m_map m (fun k v => p (k, v)) = Ok r /\ m_mapS m f w = Ok (r, w') /\
    (forall k u, Entry r k u <-> exists v, In (k, v, u) tr).
Proof. exact @c55_mapMap. Qed.
Print Assumptions C55_mapMap.
Example C55_mapMap_case := C55_mapMap mA (numbers (Q := Z * Z)) 0%Z mA_reach.
Example C55_mapMap_run : ('(m, w) <- m_mapS mA numbers 0%Z ;; l <- m_entries m ;; Ok (l, w)) = Ok ([(1, 0); (5, 1); (9, 2); (102, 3)], 4)%Z.
Proof. vm_compute. reflexivity. Qed.

Theorem C55_fromKeys : forall {E : Env} {HE : EnvOk E} {X : Type} {V : Type} {KX : Key X} {ZV : Zero V} {kok : X -> Prop} {KXO : KeyOk KX kok} {W : Type}
    (s : set X) (f : W -> X -> V * W) w,
  SetReach kok s ->
  exists l tr w' p r, s_elements s = Ok l /\ map fst tr = l /\ follows f w tr w' /\ agrees p tr /\
    m_fromKeys s p = Ok r /\ m_fromKeysS s f w = Ok (r, w') /\ (forall k v, Entry r k v <-> In (k, v) tr).
Proof. exact @c55_fromKeys. Qed.
Print Assumptions C55_fromKeys.
Example C55_fromKeys_case := C55_fromKeys (V := Z) sA (numbers (Q := Z)) 0%Z sA_reach.
Example C55_fromKeys_run : ('(m, w) <- m_fromKeysS sA numbers 0%Z ;; l <- m_entries m ;; Ok (l, w)) = Ok ([(1, 0); (5, 1); (9, 2); (2, 3); (3, 4)], 5)%Z.
Proof. vm_compute. reflexivity. Qed.

Theorem C55_merge : forall {E : Env} {HE : EnvOk E} {X : Type} {V : Type} {KX : Key X} {ZV : Zero V} {kok : X -> Prop} {KXO : KeyOk KX kok} {valok : V -> Prop} {W : Type}
    (m n : gomap X V) (resolve : W -> X * V * V -> V * W) w,
  MapReach kok valok m -> MapReach kok valok n ->
  exists tr w' p r, follows resolve w tr w' /\ agrees p tr /\
    m_mergeS m n resolve w = rmap (fun x => (x, w')) r /\ m_merge m n (fun k a b => p (k, a, b)) = r /\
    Unequal (map (fun x => fst (fst (fst x))) tr) /\
    (forall k a b c, In (k, a, b, c) tr -> Entry m k a /\ Maps n k b) /\
    (forall x k a b, r = Ok x -> Entry m k a -> Maps n k b -> exists c, In (k, a, b, c) tr /\ Maps x k c).
Proof. exact @c55_merge. Qed.
Print Assumptions C55_merge.
Example C55_merge_case := C55_merge mA mB (logs (fun q => snd (fst q) - snd q)%Z) [] mA_reach mB_reach.
Example C55_merge_run :
  ('(m, w) <- m_mergeS mA mB (logs (fun q => snd (fst q) - snd q)%Z) [] ;; l <- m_entries m ;; Ok (l, w)) = Ok ([(1, 10); (5, 50); (9, 90); (102, -178); (6, 60); (7, 70)], [(102, 22, 200)])%Z.
Proof. vm_compute. reflexivity. Qed.

Theorem C55_merge_panic : forall {E : Env} {HE : EnvOk E} {X : Type} {V : Type} {KX : Key X} {ZV : Zero V} {kok : X -> Prop} {KXO : KeyOk KX kok} {valok : V -> Prop} {W : Type}
    (m n : gomap X V) (resolve : W -> X * V * V -> V * W) w lm ln,
  MapReach kok valok m -> MapReach kok valok n ->
  m_entries m = Ok lm -> m_entries n = Ok ln ->
  (Overfull (map fst lm) (map fst ln) /\ m_mergeS m n resolve w = Panic) \/
  (~ Overfull (map fst lm) (map fst ln) /\ exists r w', m_mergeS m n resolve w = Ok (r, w')).
Proof. exact @c55_merge_panic. Qed.
Print Assumptions C55_merge_panic.
Definition enA : list (Z * Z) := Eval vm_compute in okOr [] (m_entries mA).
Definition enC : list (Z * Z) := Eval vm_compute in okOr [] (m_entries mC).
Lemma enA_ok : m_entries mA = Ok enA. Proof. vm_compute. reflexivity. Qed.
Lemma enC_ok : m_entries mC = Ok enC. Proof. vm_compute. reflexivity. Qed.
Example C55_merge_panic_case := C55_merge_panic mA mC (logs (fun q => snd q)) [] enA enC mA_reach mC_reach enA_ok enC_ok.
Example C55_merge_panic_run : m_mergeS mA mC (logs (fun q => snd q)) [] = Panic.
Proof. vm_compute. reflexivity. Qed.

Local Open Scope Z_scope.

Theorem C55_intWhere : forall {E : Env} {I : intTy} {h : Z -> N -> N} {HI : it_ok I} {W : Type}
    (s : intSet) (pred : W -> Z -> bool * W) w,
  IntReach I h fits s ->
  exists l tr w' p r, is_elements I s = Ok l /\ map fst tr = l /\ follows pred w tr w' /\ agrees p tr /\
    is_where I h s p = Ok r /\ is_whereS I h s pred w = Ok (r, w') /\
    (forall i, IntIn h r i <-> In (i, true) tr).
Proof. exact @c55_intWhere. Qed.
Print Assumptions C55_intWhere.
Example C55_intWhere_case := C55_intWhere (h := hZ) (HI := tInt_ok) iA (second (Q := Z)) 0%nat iA_reach.
Example C55_intWhere_run : inOrder (is_whereS tInt hZ iA (logs Z.even) []) (is_elements tInt) = Ok ([200; 0; -9223372036854775808; -128; 64; -64], [200; 0; 1; 63; -9223372036854775808; 9223372036854775807; -128; 64; -64])%Z.
Proof. vm_compute. reflexivity. Qed.

Theorem C55_intMap : forall {E : Env} {I : intTy} {h : Z -> N -> N} {HI : it_ok I} {W : Type}
    ord (s : intSet) (f : W -> Z -> Z * W) w,
  (forall g, Permutation (ord g) g) -> IntReach I h fits s ->
  (forall w i, IntIn h s i -> it_in I (fst (f w i)) /\ fits (fst (f w i))) ->
  exists l tr w' p r, is_elements I s = Ok l /\ map fst tr = l /\ follows f w tr w' /\ agrees p tr /\
    is_map I h ord s p = Ok r /\ is_mapS I h ord s f w = Ok (r, w') /\
    (forall i, IntIn h r i <-> In i (map snd tr)).
Proof. exact @c55_intMap. Qed.
Print Assumptions C55_intMap.
Lemma mod100_ok (w : list Z) i : IntIn hZ iB i -> it_in tInt (fst (logs (fun i => i mod 100) w i)) /\ fits (fst (logs (fun i => i mod 100) w i)).
Proof. intros _. cbn [logs fst]. pose proof (Z.mod_pos_bound i 100). split; [|left; lia]. unfold it_in. cbn - [Z.modulo]. lia. Qed.
Example C55_intMap_case := C55_intMap (h := hZ) (HI := tInt_ok) ordI iB (logs (fun i => i mod 100)%Z) [] ordI_ok iB_reach mod100_ok.
Example C55_intMap_run : inOrder (is_mapS tInt hZ ordI iB (logs (fun i => i mod 100)%Z) []) (is_elements tInt) = Ok ([65; 72; 0; 1], [1000; 200; 1; -128; 65])%Z.
Proof. vm_compute. reflexivity. Qed.
