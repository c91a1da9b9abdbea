@@ Preamble
Local Open Scope Z_scope.

(** Callbacks: the sum of the arguments; the same kept in the first argument ([for _, e := range elems[1:] { elems[0] += e }; return elems[0]]);
    the largest after sorting the arguments in descending order; the sum of the arguments and an appended 100. *)
Definition sum (l : list Z) : Z := fold_right Z.add 0 l.
Definition adds : callback (T := Z) := fun l => (sum l, []).
Definition addsIn : callback (T := Z) := fun l => (sum l, [ASet 0%nat (sum l)]).
Fixpoint insert (x : Z) (l : list Z) : list Z :=
  match l with [] => [x] | y :: l' => if y <=? x then x :: l else y :: insert x l' end.
Definition sorted (l : list Z) : list Z := fold_right insert [] l.
Fixpoint assign (i : nat) (l : list Z) : list (act (T := Z)) := match l with [] => [] | v :: l' => ASet i v :: assign (S i) l' end.
Definition sorts : callback (T := Z) := fun l => (fold_right Z.max (-1000) l, assign 0 (sorted l)).
Definition appends : callback (T := Z) := fun l => (sum l + 100, [AApp 100]).

Lemma insert_perm x l : Permutation (x :: l) (insert x l).
Proof.
  induction l as [|y l IH]; cbn [insert]; auto. destruct (y <=? x); auto. rewrite perm_swap. auto.
Qed.
Lemma sorted_perm l : Permutation l (sorted l).
Proof. induction l as [|x l IH]; cbn; auto. rewrite <- insert_perm. auto. Qed.
Lemma final_assign l' : forall pre l, length l = length l' -> final (assign (length pre) l') (pre ++ l) = Some (pre ++ l').
Proof.
  induction l' as [|v l' IH]; intros pre [|x l] Hl; cbn in Hl; try discriminate; cbn [assign final]; auto.
  rewrite app_length. cbn [length]. destruct (Nat.ltb_spec (length pre) (length pre + S (length l))); [|lia].
  replace (set_nth (pre ++ x :: l) (length pre) v) with ((pre ++ [v]) ++ l)
    by (clear; induction pre as [|y pre IH]; cbn; auto; rewrite IH; auto).
  specialize (IH (pre ++ [v]) l ltac:(lia)). rewrite app_length, Nat.add_comm in IH. cbn [length Nat.add] in IH. rewrite IH, <- app_assoc. reflexivity.
Qed.
Lemma sorts_permuting : permuting sorts.
Proof.
  intros l. exists (sorted l). split; [|apply sorted_perm].
  apply (final_assign (sorted l) [] l). apply Permutation_length, sorted_perm.
Qed.
Lemma max_order : anyOrder (fun l => fst (sorts l)).
Proof. intros l l' H. cbn. induction H; cbn; lia. Qed.

(** What Reduce gives on the [i]-th set of a program, and the elements of the [j]-th after it. *)
Definition onSet (cs : list (cmd Z)) (i : nat) (f : callback (T := Z)) (j : nat) :=
  match nth_error (st_sets (reached dbl cs)) i with
  | Some t => Some (fst (tH_reduce dbl t f (st_heap (reached dbl cs))), elemsAt (afterReduce dbl (reached dbl cs) t f) j)
  | None => None
  end.
(** 2; then 1, 5, 9, 13 (of one hash) and 2; the last with 17, in the same array; 1, 5, 9, 13, 2 in a new array. *)
Definition shared : list (cmd Z) :=
  [CNew; CAdd 0 2; CAdd 0 6; CFinish 0; CNew; CAdd 1 1; CAdd 1 5; CAdd 1 9; CAdd 1 13; CAdd 1 2; CFinish 1; CWith 1 17; CWithout 2 17; CWith 1 3].
Definition setAt (cs : list (cmd Z)) i : ptree := nth i (st_sets (reached dbl cs)) emptyPT.
Definition valAt (cs : list (cmd Z)) i : tree Z := match readT treeFuel (st_heap (reached dbl cs)) (setAt cs i) with Some u => u | None => emptyTree end.
Definition set1 : ptree := Eval vm_compute in setAt shared 1.
Definition set2 : ptree := Eval vm_compute in setAt shared 2.
Definition set3 : ptree := Eval vm_compute in setAt shared 3.
Definition val1 : tree Z := Eval vm_compute in valAt shared 1.
Definition val2 : tree Z := Eval vm_compute in valAt shared 2.
Definition val3 : tree Z := Eval vm_compute in valAt shared 3.
Lemma is1 : nth_error (st_sets (reached dbl shared)) 1 = Some set1.
Proof. vm_compute. reflexivity. Qed.
Lemma is2 : nth_error (st_sets (reached dbl shared)) 2 = Some set2.
Proof. vm_compute. reflexivity. Qed.
Lemma is3 : nth_error (st_sets (reached dbl shared)) 3 = Some set3.
Proof. vm_compute. reflexivity. Qed.
Lemma has1 : valueOf (reached dbl shared) set1 val1.
Proof. vm_compute. reflexivity. Qed.
Lemma has2 : valueOf (reached dbl shared) set2 val2.
Proof. vm_compute. reflexivity. Qed.
Lemma has3 : valueOf (reached dbl shared) set3 val3.
Proof. vm_compute. reflexivity. Qed.
Definition set0 : ptree := Eval vm_compute in setAt shared 0.
Lemma is0 : nth_error (st_sets (reached dbl shared)) 0 = Some set0.
Proof. vm_compute. reflexivity. Qed.
Definition hS : heap (T := Z) := Eval vm_compute in st_heap (reached dbl shared).
Lemma hS_ok : st_heap (reached dbl shared) = hS.
Proof. vm_compute. reflexivity. Qed.
Lemma shared_ok : progOk anyZ shared.
Proof. anyOk. Qed.
(** Tightness as a test. *)
Fixpoint tightb (fuel : nat) (h : heap (T := Z)) (p : nat) : bool :=
  match fuel, nth_error (h_objs h) p with
  | S k, Some (OBranch _ d) => forallb (fun o => match o with Some c => tightb k h c | None => true end) d
  | S _, Some (OTwig r len) =>
      match nth_error (h_arrs h) r with Some a => (len =? a_used a)%nat && (len <=? length (a_slots a))%nat | None => false end
  | S _, Some _ => true
  | _, _ => false
  end.
Lemma tightb_ok fuel h : forall p, tightb fuel h p = true -> tight h p.
Proof.
  induction fuel as [|k IH]; intros p H; cbn in H; [discriminate|]. destruct (nth_error (h_objs h) p) as [[a|a b|r len|m d]|] eqn:Eo; try discriminate.
  - eapply tight_leaf1; eauto.
  - eapply tight_leaf2; eauto.
  - destruct (nth_error (h_arrs h) r) as [a|] eqn:Ea; [|discriminate]. apply andb_prop in H as [H1 H2]. apply Nat.eqb_eq in H1. apply Nat.leb_le in H2.
    subst len. eapply tight_twig; eauto.
  - eapply tight_branch; eauto. intros c Hc. apply IH. rewrite forallb_forall in H. exact (H _ Hc).
Qed.
Lemma tightSet_ok h t p : pt_root t = Some p -> tightb treeFuel h p = true -> tightSet h t.
Proof. intros Hp H q Hq. rewrite Hp in Hq. injection Hq as <-. eapply tightb_ok; eauto. Qed.
Lemma tight2 : tightSet hS set2.
Proof. eapply tightSet_ok; [reflexivity|]. vm_compute. reflexivity. Qed.
Lemma tight3 : tightSet hS set3.
Proof. eapply tightSet_ok; [reflexivity|]. vm_compute. reflexivity. Qed.
@@ C54_reads_partial
Example C54_reads_partial_case := C54_reads_partial (grow := dbl) shared 1 2 set1 set2 val1 val2 adds (fun l => eq_refl) is1 has1 is2 has2.
Example C54_reads_partial_run : onSet shared 1 adds 2 = (Some (Ok (Some 30), Some (Some [1; 5; 9; 13; 17; 2])))%Z.
Proof. vm_compute. reflexivity. Qed.
@@ C54_reduce2
Example C54_reduce2_case op := C54_reduce2 (grow := dbl) shared 1 2 set1 set2 val1 val2 0%Z op is1 has1 is2 has2.
Example C54_reduce2_run : onSet shared 2 (reducer2H 0%Z Z.max) 1 = (Some (Ok (Some 17), Some (Some [1; 5; 9; 13; 2])))%Z.
Proof. vm_compute. reflexivity. Qed.
@@ C54_apart_partial
(** The set of 2 and 6 is a leaf of its own. *)
Lemma apart02 : apart hS set0 set2.
Proof.
  assert (H0 : forall q, nodeOf hS set0 q -> q = 1%nat).
  { intros q H. induction H as [p Hp|p m d c H IH Ho Hin]; [injection Hp as <-; reflexivity|]. subst p. discriminate Ho. }
  assert (H2 : forall q, nodeOf hS set2 q -> (2 <= q)%nat).
  { apply (nodeOf_in (fun q => (2 <= q)%nat) (fun _ => True) hS set2).
    - intros p o Hp Ho. destruct o as [a|a b|r len|m d]; cbn; auto. intros c Hin.
      assert (Hall : forallb (fun i => match nth_error (h_objs hS) i with Some (OBranch _ d) => forallb (fun o => match o with Some c => (2 <=? c)%nat | None => true end) d | _ => true end)
        (seq 2 (length (h_objs hS))) = true) by (vm_compute; reflexivity).
      rewrite forallb_forall in Hall. specialize (Hall p). rewrite Ho in Hall.
      assert (Hp2 : In p (seq 2 (length (h_objs hS)))) by (apply in_seq; assert (p < length (h_objs hS))%nat by (apply nth_error_Some; rewrite Ho; discriminate); lia).
      specialize (Hall Hp2). rewrite forallb_forall in Hall. specialize (Hall _ Hin). apply Nat.leb_le in Hall. exact Hall.
    - intros p Hp. injection Hp as <-. apply Nat.leb_le. vm_compute. reflexivity. }
  split.
  - intros q Ha Hb. apply H0 in Ha. apply H2 in Hb. lia.
  - intros r (p & len & Hp & Ho). apply H0 in Hp. subst p. discriminate Ho.
Qed.
Lemma apart02' : apart (st_heap (reached dbl shared)) set0 set2.
Proof. rewrite hS_ok. exact apart02. Qed.
Example C54_apart_partial_case f := C54_apart_partial (grow := dbl) shared 0 2 set0 set2 val2 f is0 is2 has2 apart02'.
(** The callback that assigns changes its own set, but not the other. *)
Example C54_apart_partial_run : onSet shared 0 addsIn 2 = (Some (Ok (Some 8), Some (Some [1; 5; 9; 13; 17; 2])))%Z /\ onSet shared 0 addsIn 0 = (Some (Ok (Some 8), Some (Some [8; 6])))%Z.
Proof. vm_compute. split; reflexivity. Qed.
@@ C54_order_partial
Lemma over0 : h_over (st_heap (reached dbl shared)) = 0%nat.
Proof. vm_compute. reflexivity. Qed.
Lemma tight2' : tightSet (st_heap (reached dbl shared)) set2.
Proof. rewrite hS_ok. exact tight2. Qed.
Lemma tight3' : tightSet (st_heap (reached dbl shared)) set3.
Proof. rewrite hS_ok. exact tight3. Qed.
Example C54_order_partial_case := C54_order_partial (EO := E0_ok) (KO := K0_ok) (grow := dbl) shared 2 3 set2 set3 sorts shared_ok over0 sorts_permuting is2 tight2' is3 tight3'.
Example C54_order_partial_result := proj1 C54_order_partial_case _ (has2) max_order.
Example C54_order_partial_run : onSet shared 2 sorts 3 = (Some (Ok (Some 17), Some (Some [1; 5; 9; 13; 2])))%Z /\ onSet shared 2 sorts 2 = (Some (Ok (Some 17), Some (Some [17; 13; 9; 5; 1; 2])))%Z.
Proof. vm_compute. split; reflexivity. Qed.
@@ C54_hash_partial
Definition fewS0 : ptree := Eval vm_compute in setAt few1 0.
Lemma few_is0 : nth_error (st_sets (reached dbl few1)) 0 = Some fewS0.
Proof. vm_compute. reflexivity. Qed.
Lemma few_is1 : nth_error (st_sets (reached dbl few1)) 1 = Some setF.
Proof. vm_compute. reflexivity. Qed.
Lemma few1_ok : progOk fewZ few1.
Proof. pose proof few_ok as H. unfold progOk in *. apply Forall_app in H. apply H. Qed.
Example C54_hash_partial_case := C54_hash_partial (EO := E0_ok) (KO := fewOk) (grow := dbl) few1 1 0 setF fewS0 sorts few_noTriple few1_ok sorts_permuting few_is1 few_is0.
(** The second set shares the leaf of 1 and 5 with the first. *)
Example C54_hash_partial_run : onSet few1 1 sorts 0 = (Some (Ok (Some 6), Some (Some [5; 1; 2; 3])))%Z /\ onSet few1 1 sorts 1 = (Some (Ok (Some 6), Some (Some [5; 1; 6; 2; 3])))%Z.
Proof. vm_compute. split; reflexivity. Qed.
@@ Refutations
Local Open Scope Z_scope.
(** ** What does not hold *)

(** A callback that keeps its sum in [elems[0]] changes the set whose Reduce is called: 1 and 5 become 6 and 5. *)
Theorem C54_refuted : forall grow : nat -> nat -> nat,
  ~ (forall (E : Env) (HE : EnvOk E) (T : Type) (K : Key T) (vok : T -> Prop) (KO : KeyOk K vok) (cs : list (cmd T)) i t u f,
       progOk vok cs -> nth_error (st_sets (reached grow cs)) i = Some t -> valueOf (reached grow cs) t u ->
       valueOf (afterReduce grow (reached grow cs) t f) t u).
Proof.
  intros grow H.
  specialize (H E0 E0_ok Z K0 anyZ K0_ok [CNew; CAdd 0 1; CAdd 0 5; CFinish 0] 0%nat (mkPT (Some 1%nat) 2) (mkTree (Some (Leaf2 1 5)) 2) addsIn).
  enough (X : valueOf (afterReduce grow (reached grow [CNew; CAdd 0 1; CAdd 0 5; CFinish 0]) (mkPT (Some 1%nat) 2) addsIn) (mkPT (Some 1%nat) 2) (mkTree (Some (Leaf2 1 5)) 2))
    by (vm_compute in X; discriminate X).
  apply H; [anyOk| |]; vm_compute; reflexivity.
Qed.
Print Assumptions C54_refuted.

(** A callback that only sorts its arguments, called for a set obtained by With(17), changes the set With was called on:
    it loses 1 and gains 17, since the two buckets share an array. *)
Theorem C54_sort_refuted :
  permuting sorts /\ elemsAt (reached dbl shared) 1 = Some (Some [1; 5; 9; 13; 2]) /\
  onSet shared 2 sorts 1 = Some (Ok (Some 17), Some (Some [17; 13; 9; 5; 2])).
Proof. split; [apply sorts_permuting|]. vm_compute. split; reflexivity. Qed.
Print Assumptions C54_sort_refuted.

(** A callback that appends to its arguments replaces an element of a set that was made by With from the set. *)
Theorem C54_append_refuted :
  elemsAt (reached dbl shared) 2 = Some (Some [1; 5; 9; 13; 17; 2]) /\
  option_map snd (onSet shared 1 appends 2) = Some (Some (Some [1; 5; 9; 13; 100; 2])).
Proof. vm_compute. split; reflexivity. Qed.
Print Assumptions C54_append_refuted.
