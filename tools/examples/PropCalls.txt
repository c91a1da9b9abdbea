@@ Preamble
Local Open Scope Z_scope.

(** Callbacks: one that keeps a log of the questions; one that says yes to every second question; one that numbers its answers. *)
Definition logs {Q R} (p : Q -> R) (w : list Q) (q : Q) : R * list Q := (p q, w ++ [q]).
Definition second {Q} (w : nat) (q : Q) : bool * nat := (Nat.even w, S w).
Definition numbers {Q} (w : Z) (q : Q) : Z * Z := (w, w + 1).
Definition sum (l : list Z) : Z := fold_right Z.add 0 l.
Definition inOrder {A W} (r : res (A * W)) (els : A -> res (list Z)) : res (list Z * W) :=
  '(a, w) <- r ;; l <- els a ;; Ok (l, w).
@@ C55_where
Example C55_where_case := C55_where sAB (second (Q := Z)) 0%nat sAB_reach.
Example C55_where_run : inOrder (s_whereS sAB second 0%nat) s_elements = Ok ([4; 5; 6; 203]%Z, 7%nat).
Proof. vm_compute. reflexivity. Qed.
Example C55_where_log_run : inOrder (s_whereS sAB (logs Z.even) []) s_elements = Ok ([4; 102; 6]%Z, [203; 102; 6; 1; 5; 9; 4]%Z).
Proof. vm_compute. reflexivity. Qed.
@@ C55_reduce
Example C55_reduce_case := C55_reduce sAB (logs sum) [] sAB_reach.
Example C55_reduce_run : s_reduceS sAB (logs sum) [] = Ok (Some 330%Z, [[203]; [102; 6]; [108; 203]; [1; 5; 9]; [4]; [4; 15]; [19; 311]]%Z ++ repeat [330%Z] 20).
Proof. vm_compute. reflexivity. Qed.
@@ C55_reduce2
Example C55_reduce2_case := C55_reduce2 0%Z sAB (logs (fun q => fst q - snd q)%Z) [] sAB_reach.
Example C55_reduce2_run : s_reduce2S 0%Z sAB (logs (fun q => fst q - snd q)%Z) [] = Ok (Some 124, [(102, 6); (96, 203); (1, 5); (-4, 9); (4, -13); (17, -107)])%Z.
Proof. vm_compute. reflexivity. Qed.
@@ C55_map
Example C55_map_case := C55_map (uok := anyZ) sAB (numbers (Q := Z)) 0%Z sAB_reach (fun _ _ _ => Logic.I).
Example C55_map_run : inOrder (s_mapS sAB numbers 7%Z) s_elements = Ok ([8; 12; 9; 13; 10; 7; 11], 14)%Z.
Proof. vm_compute. reflexivity. Qed.
@@ C55_groupBy
Example C55_groupBy_case := C55_groupBy (uok := anyZ) sA (logs (fun e => e mod 2)%Z) [] sA_reach (fun _ _ _ => Logic.I).
Example C55_groupBy_run :
  ('(m, w) <- s_groupByS sA (logs (fun e => e mod 2)%Z) [] ;; l <- m_entries m ;; Ok (map fst l, w)) = Ok ([1; 0], [1; 5; 9; 2; 3])%Z.
Proof. vm_compute. reflexivity. Qed.
@@ C55_mapWhere
Example C55_mapWhere_case := C55_mapWhere mA (second (Q := Z * Z)) 0%nat mA_reach.
Example C55_mapWhere_run : ('(m, w) <- m_whereS mA second 0%nat ;; l <- m_entries m ;; Ok (l, w)) = Ok ([(1, 10); (9, 90)]%Z, 4%nat).
Proof. vm_compute. reflexivity. Qed.
@@ C55_mapMap
Example C55_mapMap_case := C55_mapMap mA (numbers (Q := Z * Z)) 0%Z mA_reach.
Example C55_mapMap_run : ('(m, w) <- m_mapS mA numbers 0%Z ;; l <- m_entries m ;; Ok (l, w)) = Ok ([(1, 0); (5, 1); (9, 2); (102, 3)], 4)%Z.
Proof. vm_compute. reflexivity. Qed.
@@ C55_fromKeys
Example C55_fromKeys_case := C55_fromKeys (V := Z) sA (numbers (Q := Z)) 0%Z sA_reach.
Example C55_fromKeys_run : ('(m, w) <- m_fromKeysS sA numbers 0%Z ;; l <- m_entries m ;; Ok (l, w)) = Ok ([(1, 0); (5, 1); (9, 2); (2, 3); (3, 4)], 5)%Z.
Proof. vm_compute. reflexivity. Qed.
@@ C55_merge
Example C55_merge_case := C55_merge mA mB (logs (fun q => snd (fst q) - snd q)%Z) [] mA_reach mB_reach.
Example C55_merge_run :
  ('(m, w) <- m_mergeS mA mB (logs (fun q => snd (fst q) - snd q)%Z) [] ;; l <- m_entries m ;; Ok (l, w)) = Ok ([(1, 10); (5, 50); (9, 90); (102, -178); (6, 60); (7, 70)], [(102, 22, 200)])%Z.
Proof. vm_compute. reflexivity. Qed.
@@ C55_merge_panic
Definition enA : list (Z * Z) := Eval vm_compute in okOr [] (m_entries mA).
Definition enC : list (Z * Z) := Eval vm_compute in okOr [] (m_entries mC).
Lemma enA_ok : m_entries mA = Ok enA. Proof. vm_compute. reflexivity. Qed.
Lemma enC_ok : m_entries mC = Ok enC. Proof. vm_compute. reflexivity. Qed.
Example C55_merge_panic_case := C55_merge_panic mA mC (logs (fun q => snd q)) [] enA enC mA_reach mC_reach enA_ok enC_ok.
Example C55_merge_panic_run : m_mergeS mA mC (logs (fun q => snd q)) [] = Panic.
Proof. vm_compute. reflexivity. Qed.
@@ C55_intWhere
Example C55_intWhere_case := C55_intWhere (h := hZ) (HI := tInt_ok) iA (second (Q := Z)) 0%nat iA_reach.
Example C55_intWhere_run : inOrder (is_whereS tInt hZ iA (logs Z.even) []) (is_elements tInt) = Ok ([200; 0; -9223372036854775808; -128; 64; -64], [200; 0; 1; 63; -9223372036854775808; 9223372036854775807; -128; 64; -64])%Z.
Proof. vm_compute. reflexivity. Qed.
@@ C55_intMap
Lemma mod100_ok (w : list Z) i : IntIn hZ iB i -> it_in tInt (fst (logs (fun i => i mod 100) w i)) /\ fits (fst (logs (fun i => i mod 100) w i)).
Proof. intros _. cbn [logs fst]. pose proof (Z.mod_pos_bound i 100). split; [|left; lia]. unfold it_in. cbn - [Z.modulo]. lia. Qed.
Example C55_intMap_case := C55_intMap (h := hZ) (HI := tInt_ok) ordI iB (logs (fun i => i mod 100)%Z) [] ordI_ok iB_reach mod100_ok.
Example C55_intMap_run : inOrder (is_mapS tInt hZ ordI iB (logs (fun i => i mod 100)%Z) []) (is_elements tInt) = Ok ([65; 72; 0; 1], [1000; 200; 1; -128; 65])%Z.
Proof. vm_compute. reflexivity. Qed.
