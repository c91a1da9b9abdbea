(** * ConcOps: the parallel trie operations with their goroutines.

    [combineC], [differenceC], [intersectionC], [whereC], [equalC], [subsetOfC] and [reduceC]
    are the operations of Node.v with [Gauge.Parallel] modelled by interleaved goroutines
    (Concurrency.v). Every run of each of them ends with the result the sequential model gives,
    whatever the gauge, and the sequential model gives the same result for every gauge. *)
From Verif Require Import Base Bits Env EnvFacts Node NodeWf NodeAdd NodeRemove NodeBin NodeBin2 NodeUn Concurrency.

Section ConcOps.
Context {E : Env} {T : Type} {K : Key T}.
Notation node := (node T).

(** A computation that starts no goroutine. [Fuel] never occurs with the fuel given here. *)
Definition liftG {A X F} (r : res A) : gprog A X F :=
  match r with Ok a => GRet a | _ => GPanic end.

(** packer.go:38-41 [SetNonNilChild], one access at a time: [p.mask |= m] reads and writes. *)
Definition setNonNilActs (i : nat) (y : option node) (k : wact node) : wact node :=
  WLoadMask (fun m => WStoreMask (N.lor m (newMasker i)) (WStoreSlot i y k)).

(** nodeArgs.go:40-50 [Flip]: read [a.flipped]; if it is nil, write it; read it again. *)
Definition flipThen {A X} (f : T -> T -> T) (k : (T -> T -> T) -> gprog A X (T -> T -> T)) : gprog A X (T -> T -> T) :=
  let again := GLoad (fun o => match o with Some f' => k f' | None => GPanic end) in
  GLoad (fun o => match o with
                  | None => GStore (fun a b => f b a) again
                  | Some _ => again
                  end).

(** Arguments of [Combine] for the parts that start no goroutines. *)
Definition pargs (eq : T -> T -> bool) (f : T -> T -> T) : CombineArgs T := mkCombineArgs NonParallel eq f.

(** Combine: leaf1.go:67-81, leaf2.go:68-106, twig.go:105-146, branch.go:94-123.
    [limit] is the gauge. Only two branches start goroutines; a leaf before a branch or a larger
    leaf flips the arguments (leaf1.go:69-72, leaf2.go:70-72). *)
Fixpoint combineC (fuel : nat) (limit : Z) (eq : T -> T -> bool) (f : T -> T -> T) (n n2 : node) (depth : nat)
    : gprog (node * Z) node (T -> T -> T) :=
  match fuel with
  | O => GPanic
  | S k =>
      match n, n2 with
      | Branch m1 d1, Branch m2 d2 =>
          forkOrLoop limit depth (N.lor m1 m2)
            (fun i =>
               match child d1 i, child d2 i with
               | None, y => WAct (setNonNilActs i y (WSend true 0))
               | x, None => WAct (setNonNilActs i x (WSend true 0))
               | Some x, Some y =>
                   WRun (combineC k limit eq f x y (S depth))
                        (fun r => WStoreSlot i (Some (fst r)) (WSend true (snd r)))
               end)
            (0%N, repeat None fanout)
            (fun _ matches ret => liftG (Ok (Branch (updateMask (snd ret)) (snd ret), matches)))
      | Leaf1 _, Branch _ _ | Leaf1 _, Leaf2 _ _ | Leaf2 _ _, Branch _ _ =>
          flipThen f (fun f' => liftG (combine (S k) (pargs eq f') n2 n depth))
      | _, _ => liftG (combine (S k) (pargs eq f) n n2 depth)
      end
  end.

(** Difference: leaf1.go:90-95, leaf2.go:115-128, twig.go:155-166, branch.go:125-153. *)
Fixpoint differenceC (fuel : nat) (limit : Z) (n n2 : node) (depth : nat) : gprog (option node * Z) node unit :=
  match fuel with
  | O => GPanic
  | S k =>
      match n, n2 with
      | Branch m1 d1, Branch _ d2 =>
          forkOrLoop limit depth m1
            (fun i =>
               match child d1 i, child d2 i with
               | x, None => WAct (WStoreSlot i x (WSend true 0))
               | None, Some _ => WRun GPanic (fun _ => WSend true 0)            (* nil receiver *)
               | Some x, Some y =>
                   WRun (differenceC k limit x y (S depth))
                        (fun r => WStoreSlot i (fst r) (WSend true (snd r)))
               end)
            (0%N, repeat None fanout)
            (fun _ matches ret =>
               liftG (o <- canonical k depth (Branch (updateMask (snd ret)) (snd ret)) ;; Ok (o, matches)))
      | _, _ => liftG (difference (S k) NonParallel n n2 depth)
      end
  end.

(** Intersection: leaf1.go:113-118, leaf2.go:149-162, twig.go:200-210, branch.go:181-201. *)
Fixpoint intersectionC (fuel : nat) (limit : Z) (n n2 : node) (depth : nat) : gprog (option node * Z) node unit :=
  match fuel with
  | O => GPanic
  | S k =>
      match n, n2 with
      | Branch m1 d1, Branch m2 d2 =>
          forkOrLoop limit depth (N.land m1 m2)
            (fun i =>
               match child d1 i, child d2 i with
               | Some x, Some y =>
                   WRun (intersectionC k limit x y (S depth))
                        (fun r => WStoreSlot i (fst r) (WSend true (snd r)))
               | _, _ => WRun GPanic (fun _ => WSend true 0)                    (* nil receiver or argument *)
               end)
            (0%N, repeat None fanout)
            (fun _ matches ret =>
               liftG (o <- canonical k depth (Branch (updateMask (snd ret)) (snd ret)) ;; Ok (o, matches)))
      | _, _ => liftG (intersection (S k) NonParallel n n2 depth)
      end
  end.

(** Where: leaf1.go:149-154, leaf2.go:201-214, twig.go:271-280, branch.go:287-301 (with the
    simplification of [where_]). *)
Fixpoint whereC (fuel : nat) (limit : Z) (pred : T -> bool) (n : node) (depth : nat) : gprog (option node * Z) node unit :=
  match fuel with
  | O => GPanic
  | S k =>
      match n with
      | Branch mask data =>
          forkOrLoop limit depth mask
            (fun i =>
               match child data i with
               | Some x =>
                   WRun (whereC k limit pred x (S depth))
                        (fun r => WStoreSlot i (fst r) (WSend true (snd r)))
               | None => WRun GPanic (fun _ => WSend true 0)                    (* nil receiver *)
               end)
            (0%N, repeat None fanout)
            (fun _ matches ret =>
               liftG (o <- canonical k depth (Branch (updateMask (snd ret)) (snd ret)) ;; Ok (o, matches)))
      | _ => liftG (where_ (S k) NonParallel pred n depth)
      end
  end.

(** SubsetOf: leaf1.go:137-139, leaf2.go:184-187, twig.go:239-247, branch.go:242-259. *)
Fixpoint subsetOfC (fuel : nat) (limit : Z) (n n2 : node) (depth : nat) : gprog bool unit unit :=
  match fuel with
  | O => GPanic
  | S k =>
      match n, n2 with
      | Branch m1 d1, Branch m2 d2 =>
          forkOrLoop limit depth (N.lor m1 m2)
            (fun i =>
               match child d1 i, child d2 i with
               | None, _ => WAct (WSend true 0)
               | Some _, None => WAct (WSend false 0)
               | Some x, Some y => WRun (subsetOfC k limit x y (S depth)) (fun b => WSend b 0)
               end)
            (0%N, repeat None fanout) (fun ok _ _ => GRet ok)
      | _, _ => liftG (subsetOf (S k) NonParallel n n2 depth)
      end
  end.

(** Equal: leaf1.go:101-104, leaf2.go:134-138, twig.go:172-189, branch.go:159-171. *)
Fixpoint equalC (fuel : nat) (limit : Z) (eq : T -> T -> bool) (n n2 : node) (depth : nat) : gprog bool unit unit :=
  match fuel with
  | O => GPanic
  | S k =>
      match n, n2 with
      | Branch m1 d1, Branch m2 d2 =>
          if (m1 =? m2)%N then
            forkOrLoop limit depth m1
              (fun i =>
                 match child d1 i, child d2 i with
                 | Some x, Some y => WRun (equalC k limit eq x y (S depth)) (fun b => WSend b 0)
                 | _, _ => WRun GPanic (fun _ => WSend true 0)                  (* nil receiver or argument *)
                 end)
              (0%N, repeat None fanout) (fun ok _ _ => GRet ok)
          else GRet false
      | _, _ => liftG (equal (S k) NonParallel eq n n2 depth)
      end
  end.

(** Reduce: leaf1.go:125-127, leaf2.go:168-170, twig.go:216-218, branch.go:207-220. *)
Fixpoint reduceC (fuel : nat) (limit : Z) (r : list T -> T) (n : node) (depth : nat) : gprog T T unit :=
  match fuel with
  | O => GPanic
  | S k =>
      match n with
      | Branch mask data =>
          forkOrLoop limit depth mask
            (fun i =>
               match child data i with
               | Some x => WRun (reduceC k limit r x (S depth)) (fun t => WStoreSlot i (Some t) (WSend true 0))
               | None => WRun GPanic (fun _ => WSend true 0)                    (* nil receiver *)
               end)
            (0%N, repeat None fanout)
            (fun _ _ results =>
               liftG (results2 <- foldM (fun acc i =>
                          match nth i (snd results) None with
                          | Some t => Ok (acc ++ [t])
                          | None => Panic
                          end) [] (mask_indices mask) ;;
                      Ok (r results2)))
      | _ => liftG (reduce (S k) NonParallel r n depth)
      end
  end.

End ConcOps.

(** ** Every run gives the sequential result *)

Section ConcFacts.
Local Opaque maxTreeDepth fanout fb.
Context {E : Env} {T : Type} {K : Key T} {vok : T -> Prop} {KO : KeyOk K vok}.
Notation node := (node T).
Notation wf := (wf vok).

(** A mask of slots of a branch. *)
Definition maskOk (mask : N) : Prop :=
  (mask < 2 ^ 16)%N /\ forall i, fanout <= i -> N.testbit mask (N.of_nat i) = false.

Lemma maskOk_update (data : list (option node)) : length data = fanout -> maskOk (updateMask data).
Proof. intros H. split; [apply updateMask_lt|]. intros i Hi. apply mask_ge_fanout; auto. Qed.

Lemma maskOk_lor m1 m2 : maskOk m1 -> maskOk m2 -> maskOk (N.lor m1 m2).
Proof.
  intros [H1 H2] [H3 H4]. split; [apply lt_pow_lor; auto|]. intros i Hi. rewrite N.lor_spec, H2, H4; auto.
Qed.

Lemma maskOk_land m1 m2 : maskOk m1 -> maskOk m2 -> maskOk (N.land m1 m2).
Proof.
  intros [H1 H2] [H3 H4]. split.
  - apply N.le_lt_trans with m1; auto. apply N.ldiff_le. apply N.bits_inj. intros i.
    rewrite N.ldiff_spec, N.land_spec, N.bits_0. destruct (N.testbit m1 i), (N.testbit m2 i); auto.
  - intros i Hi. rewrite N.land_spec, H2, H4; auto.
Qed.

Lemma maskOk_lt mask i : maskOk mask -> In i (mask_indices mask) -> i < fanout.
Proof.
  intros [H1 H2] Hi. apply mask_indices_In in Hi as [_ Hi]; auto.
  destruct (Nat.lt_ge_cases i fanout); auto. rewrite H2 in Hi; auto. discriminate.
Qed.

Lemma slots_ext {X} (l1 l2 : list (option X)) :
  length l1 = length l2 -> (forall i, i < length l1 -> nth i l1 None = nth i l2 None) -> l1 = l2.
Proof. intros Hl H. apply nth_ext with None None; auto. Qed.

Section Rules.
Context {A X F : Type} (rely : option F -> option F -> Prop).
Hypothesis rely_refl : forall c, rely c c.
Hypothesis rely_trans : forall c1 c2 c3, rely c1 c2 -> rely c2 c3 -> rely c1 c3.
Notation Yields := (Yields fanout rely).
Notation WorkOk := (WorkOk fanout rely).

Lemma par_slots_inv {M} (w : nat -> res (option X * Z)) f order acc (s : M * list (option X)) out :
  slot_worker w f order -> par_loop f order acc s = Ok out ->
  forall i, In i order -> exists x m, w i = Ok (x, m).
Proof.
  revert acc s. induction order as [|j order IH]; intros acc s Hf H i Hi; [contradiction|].
  cbn [par_loop] in H. destruct (Hf j s (or_introl eq_refl)) as (fm & Hfj). rewrite Hfj in H.
  destruct (w j) as [[x m]| |] eqn:Ew; cbn [bind fst snd] in H; try discriminate.
  destruct Hi as [<-|Hi]; [eauto|]. eapply IH; eauto. eapply slot_worker_cons; eauto.
Qed.

(** Workers that fill their slots with [w i]: any other gauge, and any interleaving, gives the same. *)
Lemma par_transfer {M} (w1 : nat -> res (option X * Z)) f1 g1 d mask (m0 : M) (Fin : list (option X) -> Z -> res A) r :
  maskOk mask -> gaugeOk g1 -> slot_worker w1 f1 (mask_indices mask) ->
  ('(_, ms, ret) <- parallel g1 d mask f1 (m0, repeat None fanout) ;; Fin (snd ret) ms) = Ok r ->
  (forall w2 f2 g2, gaugeOk g2 -> slot_worker w2 f2 (mask_indices mask) ->
     (forall i x m, In i (mask_indices mask) -> w1 i = Ok (x, m) -> w2 i = Ok (x, m)) ->
     ('(_, ms, ret) <- parallel g2 d mask f2 (m0, repeat None fanout) ;; Fin (snd ret) ms) = Ok r) /\
  (forall W limit m1 c,
     (forall i x m, In i (mask_indices mask) -> w1 i = Ok (x, m) -> WorkOk (mkJob i x true m) c (W i)) ->
     Yields r c (forkOrLoop limit d mask W (m1, repeat None fanout) (fun _ ms sh => liftG (Fin (snd sh) ms)))).
Proof.
  intros Hm Hg1 Hf1 H. pose proof Hm as [Hmask _]. unfold parallel in H.
  pose proof (par_order_perm g1 d mask Hg1) as HP1.
  assert (Hnd : NoDup (mask_indices mask)) by (apply mask_indices_NoDup; auto).
  assert (Hlt : forall i, In i (mask_indices mask) -> i < fanout) by (intros; eapply maskOk_lt; eauto).
  assert (Hsw1 : slot_worker w1 f1 (par_order g1 d mask)).
  { intros i s Hi. apply Hf1. eapply Permutation_in; eauto. }
  assert (Hok : forall i, In i (mask_indices mask) -> exists x m, w1 i = Ok (x, m)).
  { intros i Hi. destruct (par_loop f1 (par_order g1 d mask) 0 (m0, repeat None fanout)) as [out| |] eqn:El; try discriminate.
    eapply (par_slots_inv w1 f1); eauto. eapply Permutation_in; [symmetry|]; eauto. }
  assert (Hgen : forall w2 f2 g2, gaugeOk g2 -> slot_worker w2 f2 (mask_indices mask) ->
     (forall i x m, In i (mask_indices mask) -> w1 i = Ok (x, m) -> w2 i = Ok (x, m)) ->
     exists s2, par_loop f2 (par_order g2 d mask) 0 (m0, repeat None fanout) =
        Ok (true, sumZ (map (fun i => outZ (w1 i)) (mask_indices mask)), s2) /\
        length (snd s2) = fanout /\
        (forall i x m, In i (mask_indices mask) -> w1 i = Ok (x, m) -> nth i (snd s2) None = x) /\
        (forall i, ~ In i (mask_indices mask) -> nth i (snd s2) None = None)).
  { intros w2 f2 g2 Hg2 Hf2 Hsame. pose proof (par_order_perm g2 d mask Hg2) as HP2.
    assert (Hiff : forall i, In i (par_order g2 d mask) <-> In i (mask_indices mask)).
    { intros i. split; apply Permutation_in; auto. symmetry; auto. }
    destruct (par_slots w2 f2 (par_order g2 d mask) 0 (m0, repeat None fanout) None) as (s2 & E1 & E2 & E3 & E4).
    - intros i s Hi. apply Hf2. apply Hiff; auto.
    - eapply Permutation_NoDup; [symmetry|]; eauto.
    - intros i Hi. cbn [snd]. rewrite repeat_length. apply Hlt. apply Hiff; auto.
    - intros i Hi. apply Hiff in Hi. destruct (Hok i Hi) as (x & m & Ew). eauto.
    - exists s2. rewrite E1. split; [|split; [|split]].
      + rewrite Z.add_0_l. f_equal. f_equal. f_equal.
        rewrite (sumZ_perm _ (map (fun i => outZ (w2 i)) (mask_indices mask))) by (apply Permutation_map; auto).
        apply sumZ_ext. intros i Hi. destruct (Hok i Hi) as (x & m & Ew).
        rewrite Ew, (Hsame i x m Hi Ew). reflexivity.
      + rewrite E2. cbn [snd]. apply repeat_length.
      + intros i x m Hi Ew. apply (E3 i x m); [apply Hiff; auto|eauto].
      + intros i Hi. rewrite E4 by (rewrite Hiff; auto). cbn [snd].
        destruct (Nat.lt_ge_cases i fanout); [apply nth_repeat|apply nth_overflow; rewrite repeat_length; lia]. }
  destruct (Hgen w1 f1 g1) as (s1 & E1 & L1 & V1 & N1); auto.
  rewrite E1 in H. cbn [bind] in H.
  assert (Hdet : forall slots, length slots = fanout ->
     (forall i x m, In i (mask_indices mask) -> w1 i = Ok (x, m) -> nth i slots None = x) ->
     (forall i, ~ In i (mask_indices mask) -> nth i slots None = None) -> slots = snd s1).
  { intros slots Hl Hv Hn. apply slots_ext; [congruence|]. intros i Hi.
    destruct (in_dec Nat.eq_dec i (mask_indices mask)) as [Hin|Hin].
    - destruct (Hok i Hin) as (x & m & Ew). rewrite (Hv i x m), (V1 i x m); auto.
    - rewrite Hn, N1; auto. }
  split.
  - intros w2 f2 g2 Hg2 Hf2 Hsame. unfold parallel.
    destruct (Hgen w2 f2 g2) as (s2 & E2 & L2 & V2 & N2); auto.
    rewrite E2. cbn [bind]. rewrite (Hdet (snd s2)); auto.
  - intros W limit m1 c HW.
    set (val := fun i => match w1 i with Ok (x, _) => x | _ => None end).
    apply (parallel_yields fanout rely rely_refl rely_trans fanout limit d mask W (m1, repeat None fanout) _ r c
             (map (fun i => mkJob i (val i) true (outZ (w1 i))) (mask_indices mask))).
    + pose proof fanout_pos; lia.
    + rewrite map_map. simpl. apply map_id.
    + auto.
    + auto.
    + intros j Hj. apply in_map_iff in Hj as (i & <- & Hi). destruct (Hok i Hi) as (x & m & Ew).
      unfold val. cbn [j_slot]. rewrite Ew. cbn [outZ]. apply HW; auto.
    + reflexivity.
    + intros _ c1 mask' slots Hc1 (F1 & F2 & F3). cbn [snd].
      rewrite map_map in *. cbn [j_slot j_matches] in *. rewrite map_id in F3.
      rewrite (Hdet slots).
      * rewrite H. apply yields_ret; auto.
      * auto.
      * intros i x m Hi Ew. specialize (F2 (mkJob i (val i) true (outZ (w1 i)))). cbn [j_slot j_val] in F2.
        rewrite F2; [unfold val; rewrite Ew; auto|]. apply in_map_iff. eauto.
      * auto.
    + intros (j & Hj & Hb). apply in_map_iff in Hj as (i & <- & _). discriminate.
Qed.

(** Workers that only report a boolean. *)
Lemma bool_yields (w : nat -> bool) d mask (W : nat -> worker bool X F) limit m1 c :
  maskOk mask ->
  (forall i, In i (mask_indices mask) ->
     Concurrency.WorkOk (A := bool) fanout rely (mkJob i None (w i) 0) c (W i)) ->
  Concurrency.Yields (A := bool) fanout rely (forallb w (mask_indices mask)) c
    (forkOrLoop limit d mask W (m1, repeat None fanout) (fun ok _ _ => GRet ok)).
Proof.
  intros Hm HW. pose proof Hm as [Hmask _].
  apply (parallel_yields fanout rely rely_refl rely_trans fanout limit d mask W (m1, repeat None fanout) _ _ c
           (map (fun i => mkJob i None (w i) 0) (mask_indices mask))).
  - pose proof fanout_pos; lia.
  - rewrite map_map. simpl. apply map_id.
  - apply mask_indices_NoDup; auto.
  - intros; eapply maskOk_lt; eauto.
  - intros j Hj. apply in_map_iff in Hj as (i & <- & Hi). apply HW; auto.
  - reflexivity.
  - intros Hall c1 mask' slots _ _. replace (forallb w (mask_indices mask)) with true; [apply yields_ret; auto|].
    symmetry. apply forallb_forall. intros i Hi. apply (Hall (mkJob i None (w i) 0)). apply in_map_iff. eauto.
  - intros (j & Hj & Hb) c1 acc sh _. apply in_map_iff in Hj as (i & <- & Hi). cbn [j_ok] in Hb.
    replace (forallb w (mask_indices mask)) with false; [apply yields_ret; auto|].
    symmetry. apply not_true_iff_false. rewrite forallb_forall. intros H. rewrite (H i Hi) in Hb. discriminate.
Qed.

Lemma lift_yields (x : res A) (r : A) c : x = Ok r -> Yields r c (liftG (X := X) x).
Proof. intros ->. apply yields_ret; auto. Qed.

End Rules.

(** ** The gauge is only used by [Parallel] *)

Lemma with_gauge fuel : forall g1 g2 eq f (n : node) v d h,
  with_ fuel (mkCombineArgs g1 eq f) n v d h = with_ fuel (mkCombineArgs g2 eq f) n v d h.
Proof.
  induction fuel as [|k IH]; intros g1 g2 eq f n v d h; auto.
  destruct n as [a|a b|l|m1 d1]; cbn [with_ c_eq c_f]; auto.
  destruct (child d1 (h_hash h)) as [x|]; auto. rewrite (IH g1 g2). reflexivity.
Qed.

Lemma foldM_ext_all {A B} (f g : B -> A -> res B) l b : (forall b a, f b a = g b a) -> foldM f b l = foldM g b l.
Proof.
  intros H. revert b. induction l as [|a l IH]; intros b; cbn [foldM]; auto. rewrite H.
  destruct (g b a); cbn [bind]; auto.
Qed.

Lemma add_gauge fuel : forall g1 g2 eq f (n : node) v d h,
  add fuel (mkCombineArgs g1 eq f) n v d h = add fuel (mkCombineArgs g2 eq f) n v d h.
Proof.
  induction fuel as [|k IH]; intros g1 g2 eq f n v d h; auto.
  destruct n as [a|a b|l|m1 d1]; cbn [add c_eq c_f]; auto.
  - destruct (replaceFirst _ _ l); auto. destruct (_ <=? _); auto.
    rewrite (foldM_ext_all _ (fun bm e =>
       '(b', m) <- add k (mkCombineArgs g2 eq f) (fst bm) e d (newHasher e d) ;; Ok (b', (snd bm + m)%Z))).
    + destruct (foldM _ _ l) as [[b m]| |]; cbn [bind]; auto. rewrite (IH g1 g2). reflexivity.
    + intros bm e. rewrite (IH g1 g2). reflexivity.
  - destruct (child d1 (h_hash h)) as [x|]; auto. rewrite (IH g1 g2). reflexivity.
Qed.

Lemma combineTwig_scan_gauge fuel d g1 g2 eq f (l2 : list T) : forall l m,
  combineTwig_scan fuel (mkCombineArgs g1 eq f) d l l2 m = combineTwig_scan fuel (mkCombineArgs g2 eq f) d l l2 m.
Proof.
  induction l2 as [|e l2 IH]; intros l m; cbn [combineTwig_scan c_eq c_f]; auto.
  destruct (replaceFirst _ _ l); auto. destruct (_ <? _)%nat; auto.
  assert (Hd : combineTwig_dropped fuel (mkCombineArgs g1 eq f) d l (e :: l2) =
               combineTwig_dropped fuel (mkCombineArgs g2 eq f) d l (e :: l2)).
  { unfold combineTwig_dropped. f_equal. apply foldM_ext_all. intros bm x. rewrite (add_gauge fuel g1 g2). reflexivity. }
  rewrite Hd. destruct (combineTwig_dropped fuel (mkCombineArgs g2 eq f) d l (e :: l2)) as [z| |]; cbn [bind]; auto.
Qed.

(** Two branches are the only case in which [Combine] starts goroutines. *)
Definition isBranch (n : node) : bool := match n with Branch _ _ => true | _ => false end.

Lemma combine_gauge k g1 g2 eq f (n n2 : node) d : isBranch n && isBranch n2 = false ->
  combine (S k) (mkCombineArgs g1 eq f) n n2 d = combine (S k) (mkCombineArgs g2 eq f) n n2 d.
Proof.
  intros H. destruct n as [a|a b|l|m1 d1], n2 as [x|x y|l2|m2 d2]; try discriminate H; cbn [combine]; auto;
    unfold flip_args; cbn [c_eq c_f c_gauge];
    try (apply with_gauge);
    try (rewrite (with_gauge k g1 g2); destruct (with_ _ _ _ _ _ _) as [[n' m']| |]; cbn [bind]; auto;
         rewrite (with_gauge k g1 g2); reflexivity).
  unfold combineTwig. rewrite (combineTwig_scan_gauge k d g1 g2). reflexivity.
Qed.

(** ** Combine *)

(** What the goroutines of one [Combine] do to [args.flipped]. *)
Definition flipRely (f : T -> T -> T) (c c' : option (T -> T -> T)) : Prop :=
  c' = c \/ (c = None /\ c' = Some (fun a b => f b a)).
Definition flipOk (f : T -> T -> T) (c : option (T -> T -> T)) : Prop := flipRely f None c.

Lemma flipRely_refl f c : flipRely f c c.
Proof. left; auto. Qed.
Lemma flipRely_trans f c1 c2 c3 : flipRely f c1 c2 -> flipRely f c2 c3 -> flipRely f c1 c3.
Proof. unfold flipRely. intros [->|[-> ->]] [->|[? ->]]; auto. Qed.

Lemma flipThen_yields {A X} f (k : (T -> T -> T) -> gprog A X (T -> T -> T)) r c :
  flipOk f c ->
  (forall c1, flipOk f c1 -> Yields fanout (flipRely f) r c1 (k (fun a b => f b a))) ->
  Yields fanout (flipRely f) r c (flipThen f k).
Proof.
  intros Hc Hk. pose proof (flipRely_refl f) as HR. pose proof (flipRely_trans f) as HT.
  assert (Hagain : forall c1, c1 = Some (fun a b => f b a) -> Yields fanout (flipRely f) r c1
      (GLoad (fun o => match o with Some f' => k f' | None => GPanic end))).
  { intros c1 ->. apply yields_load; auto. intros c2 H2. destruct H2 as [->|[E1 _]]; [|discriminate].
    apply Hk. right. auto. }
  unfold flipThen. apply yields_load; auto. intros c1 H1.
  assert (Hc1 : flipOk f c1) by (unfold flipOk in *; eapply HT; eauto).
  destruct Hc1 as [->|[_ ->]].
  - apply yields_store.
    + intros c2 [->|[_ ->]]; [right; auto|left; auto].
    + apply Hagain; auto.
  - apply Hagain; auto.
Qed.

Theorem combine_any fuel : forall eq f d n n2 g1 r,
  wf d n -> wf d n2 -> gaugeOk g1 -> combine fuel (mkCombineArgs g1 eq f) n n2 d = Ok r ->
  (forall g2, gaugeOk g2 -> combine fuel (mkCombineArgs g2 eq f) n n2 d = Ok r) /\
  (forall limit c, flipOk f c -> Yields fanout (flipRely f) r c (combineC fuel limit eq f n n2 d)).
Proof.
  induction fuel as [|k IH]; intros eq f d n n2 g1 r Hwf1 Hwf2 Hg1 H; [discriminate|].
  destruct (isBranch n && isBranch n2) eqn:Hb.
  2:{ split.
      - intros g2 _. rewrite (combine_gauge k g2 g1); auto.
      - intros limit c Hc.
        assert (HP : combine (S k) (pargs eq f) n n2 d = Ok r).
        { unfold pargs. rewrite (combine_gauge k NonParallel g1); auto. }
        destruct n as [a|a b|l|m1 d1], n2 as [x|x y|l2|m2 d2]; try discriminate Hb; cbn [combineC];
          try (apply lift_yields; exact HP);
          (apply flipThen_yields; auto; intros c1 _; apply lift_yields; exact HP). }
  destruct n as [a|a b|l|m1 d1]; try discriminate Hb. destruct n2 as [x|x y|l2|m2 d2]; try discriminate Hb. clear Hb.
  inversion Hwf1 as [| | |d' m' data' Hd Hlen1 Hm1 Hch1 Hp1 Hl1]; subst d' m' data'.
  inversion Hwf2 as [| | |d' m' data' _ Hlen2 Hm2 Hch2 Hp2 Hl2]; subst d' m' data'.
  assert (Hmask : maskOk (N.lor m1 m2)).
  { subst m1 m2. apply maskOk_lor; apply maskOk_update; auto. }
  cbn [combine c_gauge] in H. set (w := fun (g : gauge) i => match child d1 i, child d2 i with
       | None, y => Ok (y, 0%Z)
       | Some x, None => Ok (Some x, 0%Z)
       | Some x, Some y => '(r, m) <- combine k (mkCombineArgs (g_sub i g) eq f) x y (S d) ;; Ok (Some r, m)
       end).
  assert (Hsw : forall g, slot_worker (w g)
     (fun i (ret : packer T) =>
               match child d1 i, child d2 i with
               | None, y => Ok (true, 0%Z, setNonNilChild ret i y)
               | x, None => Ok (true, 0%Z, setNonNilChild ret i x)
               | Some x, Some y =>
                   '(r, m) <- combine k (c_sub i (mkCombineArgs g eq f)) x y (S d) ;;
                   Ok (true, m, (fst ret, set_nth (snd ret) i (Some r)))
               end) (mask_indices (N.lor m1 m2))).
  { intros g i s _. unfold w, c_sub. cbn [c_gauge c_eq c_f].
    destruct (child d1 i) as [x|]; [destruct (child d2 i) as [y|]|].
    - exists (fun m => m). destruct (combine k _ x y (S d)) as [[r' m']| |]; reflexivity.
    - exists (fun m => N.lor m (newMasker i)). reflexivity.
    - exists (fun m => N.lor m (newMasker i)). reflexivity. }
  destruct (par_transfer (flipRely f) (flipRely_refl f) (flipRely_trans f) (w g1) _ g1 d (N.lor m1 m2) 0%N
              (fun slots ms => Ok (Branch (updateMask slots) slots, ms)) r Hmask Hg1 (Hsw g1) H) as [HA HB].
  split.
  - intros g2 Hg2. cbn [combine c_gauge]. apply (HA (w g2)); auto.
    intros i x m Hi. unfold w. destruct (child d1 i) as [x1|] eqn:E1; auto. destruct (child d2 i) as [y1|] eqn:E2; auto.
    destruct (combine k (mkCombineArgs (g_sub i g1) eq f) x1 y1 (S d)) as [r1| |] eqn:Ec; try discriminate.
    destruct (IH eq f (S d) x1 y1 (g_sub i g1) r1) as [HI _]; eauto; [apply gaugeOk_sub; auto|].
    rewrite HI; auto. apply gaugeOk_sub; auto.
  - intros limit c Hc. cbn [combineC]. apply HB. intros i x m Hi. unfold w.
    destruct (child d1 i) as [x1|] eqn:E1; [destruct (child d2 i) as [y1|] eqn:E2|].
    + destruct (combine k (mkCombineArgs (g_sub i g1) eq f) x1 y1 (S d)) as [[r1 ms1]| |] eqn:Ec; try discriminate.
      cbn [bind]. intros Ew. inversion Ew; subst x m.
      destruct (IH eq f (S d) x1 y1 (g_sub i g1) (r1, ms1)) as [_ HI]; eauto; [apply gaugeOk_sub; auto|].
      cbn [WorkOk]. exists (r1, ms1). split; [apply HI; auto|]. cbn [actsOk fst snd j_slot j_val j_ok j_matches]. auto 8.
    + intros Ew. inversion Ew; subst x m. cbn. auto 8.
    + intros Ew. inversion Ew; subst x m. cbn. auto 8.
Qed.

Lemma lift_fails {A X F} rely (x : res A) c : (forall r, x <> Ok r) -> Fails fanout rely c (liftG (X := X) (F := F) x).
Proof. intros H. destruct x as [a| |]; [exfalso; eapply H; eauto|apply fails_now; constructor..]. Qed.

Lemma fails_load {A X F} (rely : option F -> option F -> Prop) (c : option F) (k : option F -> gprog A X F) :
  (forall c, rely c c) -> (forall c1, rely c c1 -> Fails fanout rely c1 (k c1)) -> Fails fanout rely c (GLoad k).
Proof.
  intros HR H. apply fails_step.
  - intros Hc. inversion Hc.
  - discriminate.
  - intros c1 _. eexists _, _. apply s_load.
  - intros c1 c' g' Hc Hs. inversion Hs; subst. auto.
  - intros c1 c' g' Hc Hs. inversion Hs; subst. auto.
Qed.

Lemma flipThen_fails {A X} f (k : (T -> T -> T) -> gprog A X (T -> T -> T)) c :
  flipOk f c ->
  (forall c1, flipOk f c1 -> Fails fanout (flipRely f) c1 (k (fun a b => f b a))) ->
  Fails fanout (flipRely f) c (flipThen f k).
Proof.
  intros Hc Hk. pose proof (flipRely_refl f) as HR. pose proof (flipRely_trans f) as HT.
  assert (Hagain : forall c1, c1 = Some (fun a b => f b a) -> Fails fanout (flipRely f) c1
      (GLoad (fun o => match o with Some f' => k f' | None => GPanic end))).
  { intros c1 ->. apply fails_load; auto. intros c2 H2. destruct H2 as [->|[E1 _]]; [|discriminate].
    apply Hk. right. auto. }
  unfold flipThen. apply fails_load; auto. intros c1 H1.
  assert (Hc1 : flipOk f c1) by (unfold flipOk in *; eapply HT; eauto).
  destruct Hc1 as [->|[_ ->]].
  - apply fails_step.
    + intros H. inversion H.
    + discriminate.
    + intros c2 _. eexists _, _. apply s_store.
    + intros c2 c' g' [->|[_ ->]] Hst; inversion Hst; subst; [right; auto|left; auto].
    + intros c2 c' g' _ Hst. inversion Hst; subst. apply Hagain; auto.
  - apply Hagain; auto.
Qed.

(** If one gauge gives no result then every run of the concurrent program panics. *)
Theorem combine_fails fuel : forall eq f d n n2 g1,
  wf d n -> wf d n2 -> gaugeOk g1 -> (forall r, combine fuel (mkCombineArgs g1 eq f) n n2 d <> Ok r) ->
  forall limit c, flipOk f c -> Fails fanout (flipRely f) c (combineC fuel limit eq f n n2 d).
Proof.
  induction fuel as [|k IH]; intros eq f d n n2 g1 Hwf1 Hwf2 Hg1 H limit c Hc; [apply fails_now; constructor|].
  destruct (isBranch n && isBranch n2) eqn:Hb.
  2:{ assert (HP : forall r, combine (S k) (pargs eq f) n n2 d <> Ok r).
      { unfold pargs. rewrite (combine_gauge k NonParallel g1); auto. }
      destruct n as [a|a b|l|m1 d1], n2 as [x|x y|l2|m2 d2]; try discriminate Hb; cbn [combineC];
          try (apply lift_fails; exact HP);
          (apply flipThen_fails; auto; intros c1 _; apply lift_fails; exact HP). }
  destruct n as [a|a b|l|m1 d1]; try discriminate Hb. destruct n2 as [x|x y|l2|m2 d2]; try discriminate Hb. clear Hb.
  inversion Hwf1 as [| | |d' m' data' Hd Hlen1 Hm1 Hch1 Hp1 Hl1]; subst d' m' data'.
  inversion Hwf2 as [| | |d' m' data' _ Hlen2 Hm2 Hch2 Hp2 Hl2]; subst d' m' data'.
  assert (Hmask : maskOk (N.lor m1 m2)).
  { subst m1 m2. apply maskOk_lor; apply maskOk_update; auto. }
  assert (Hnd : NoDup (mask_indices (N.lor m1 m2))) by (apply mask_indices_NoDup; apply Hmask).
  set (w := fun i => match child d1 i, child d2 i with
       | None, y => Ok (y, 0%Z)
       | Some x, None => Ok (Some x, 0%Z)
       | Some x, Some y => '(r, m) <- combine k (mkCombineArgs (g_sub i g1) eq f) x y (S d) ;; Ok (Some r, m)
       end).
  assert (Hbad : exists i x y, In i (mask_indices (N.lor m1 m2)) /\ child d1 i = Some x /\ child d2 i = Some y /\
     forall r, combine k (mkCombineArgs (g_sub i g1) eq f) x y (S d) <> Ok r).
  { assert (Hdec : (exists i, In i (mask_indices (N.lor m1 m2)) /\ forall r, w i <> Ok r) \/
       (forall i, In i (mask_indices (N.lor m1 m2)) -> exists r m, w i = Ok (r, m))).
    { induction (mask_indices (N.lor m1 m2)) as [|i l IHl]; [right; intros i []|].
      inversion Hnd; subst. destruct IHl as [(i' & Hi & Hr)|IHl]; auto.
      - left. exists i'. split; auto. right; auto.
      - destruct (w i) as [[r m]| |] eqn:Ew.
        + right. intros i' [<-|Hi]; eauto.
        + left. exists i. split; [left; auto|]. intros r. rewrite Ew. discriminate.
        + left. exists i. split; [left; auto|]. intros r. rewrite Ew. discriminate. }
    destruct Hdec as [(i & Hi & Hr)|Hok].
    - unfold w in Hr. destruct (child d1 i) as [x|] eqn:E1; [destruct (child d2 i) as [y|] eqn:E2|].
      + exists i, x, y. split; [auto|]. split; [auto|]. split; [auto|]. intros [r m] Er. apply (Hr (Some r, m)). rewrite Er. reflexivity.
      + exfalso. eapply Hr; eauto.
      + exfalso. eapply Hr; eauto.
    - exfalso. cbn [combine c_gauge] in H. unfold parallel in H.
      pose proof (par_order_perm g1 d (N.lor m1 m2) Hg1) as HP.
      assert (Hiff : forall i, In i (par_order g1 d (N.lor m1 m2)) -> In i (mask_indices (N.lor m1 m2))).
      { intros i. apply Permutation_in; auto. }
      match type of H with forall r, bind (par_loop ?ff _ _ _) _ <> _ => set (f1 := ff) in H end.
      destruct (par_slots w f1 (par_order g1 d (N.lor m1 m2)) 0 emptyPacker None) as (s2 & E1 & _ & _ & _).
      + intros i s Hi. unfold f1, w, c_sub. cbn [c_gauge c_eq c_f].
        destruct (child d1 i) as [x|]; [destruct (child d2 i) as [y|]|].
        * exists (fun m => m). destruct (combine k _ x y (S d)) as [[r' m']| |]; reflexivity.
        * exists (fun m => N.lor m (newMasker i)). reflexivity.
        * exists (fun m => N.lor m (newMasker i)). reflexivity.
      + eapply Permutation_NoDup; [symmetry|]; eauto.
      + intros i Hi. apply Hiff in Hi. unfold emptyPacker, emptyData. cbn [snd]. rewrite repeat_length. eapply maskOk_lt; eauto.
      + intros i Hi. apply Hok. auto.
      + refine (H _ _). etransitivity; [apply (f_equal (fun x => bind x _)); exact E1|reflexivity]. }
  cbn [combineC]. apply parallel_fails; [apply flipRely_refl|apply flipRely_trans| |].
  - intros i Hi. destruct (child d1 i) as [x|] eqn:E1; [destruct (child d2 i) as [y|] eqn:E2|].
    + destruct (combine k (mkCombineArgs (g_sub i g1) eq f) x y (S d)) as [[r m]| |] eqn:Ec.
      * left. exists (mkJob i (Some r) true m). split; [reflexivity|].
        destruct (combine_any k eq f (S d) x y (g_sub i g1) (r, m)) as [_ HI]; eauto; [apply gaugeOk_sub; auto|].
        exists (r, m). split; [apply HI; auto|]. cbn. auto 8.
      * right. eexists _, _. split; [reflexivity|]. apply (IH eq f (S d) x y (g_sub i g1)); eauto; [apply gaugeOk_sub; auto|].
        intros r. rewrite Ec. discriminate.
      * right. eexists _, _. split; [reflexivity|]. apply (IH eq f (S d) x y (g_sub i g1)); eauto; [apply gaugeOk_sub; auto|].
        intros r. rewrite Ec. discriminate.
    + left. exists (mkJob i (Some x) true 0). cbn. auto 8.
    + left. exists (mkJob i (child d2 i) true 0). cbn. auto 8.
  - destruct Hbad as (i & x & y & Hi & E1 & E2 & Hr). exists i. rewrite E1, E2. eexists _, _.
    split; [auto|]. split; [reflexivity|]. apply (IH eq f (S d) x y (g_sub i g1)); eauto. apply gaugeOk_sub; auto.
Qed.

(** ** Difference, Intersection, Where *)

Definition noRely (c c' : option unit) : Prop := True.
Lemma noRely_refl c : noRely c c.
Proof. exact Logic.I. Qed.
Lemma noRely_trans c1 c2 c3 : noRely c1 c2 -> noRely c2 c3 -> noRely c1 c3.
Proof. intros; exact Logic.I. Qed.

Theorem difference_any fuel : forall d n n2 g1 r,
  wf d n -> wf d n2 -> gaugeOk g1 -> difference fuel g1 n n2 d = Ok r ->
  (forall g2, gaugeOk g2 -> difference fuel g2 n n2 d = Ok r) /\
  (forall limit c, Yields fanout noRely r c (differenceC fuel limit n n2 d)).
Proof.
  induction fuel as [|k IH]; intros d n n2 g1 r Hwf1 Hwf2 Hg1 H; [discriminate|].
  destruct (isBranch n && isBranch n2) eqn:Hb.
  2:{ split.
      - intros g2 _. destruct n, n2; try discriminate Hb; exact H.
      - intros limit c. destruct n, n2; try discriminate Hb; cbn [differenceC]; apply lift_yields; exact H. }
  destruct n as [a|a b|l|m1 d1]; try discriminate Hb. destruct n2 as [x|x y|l2|m2 d2]; try discriminate Hb. clear Hb.
  inversion Hwf1 as [| | |d' m' data' Hd Hlen1 Hm1 Hch1 Hp1 Hl1]; subst d' m' data'.
  inversion Hwf2 as [| | |d' m' data' _ Hlen2 Hm2 Hch2 Hp2 Hl2]; subst d' m' data'.
  assert (Hmask : maskOk m1) by (subst m1; apply maskOk_update; auto).
  cbn [difference] in H. set (w := fun (g : gauge) i => match child d1 i, child d2 i with
       | x, None => Ok (x, 0%Z)
       | None, Some _ => Panic
       | Some x, Some y => difference k (g_sub i g) x y (S d)
       end).
  assert (Hsw : forall g, slot_worker (w g)
     (fun i (ret : packer T) =>
                   match child d1 i, child d2 i with
                   | x, None => Ok (true, 0%Z, (fst ret, set_nth (snd ret) i x))
                   | None, Some _ => Panic
                   | Some x, Some y =>
                       '(r, m) <- difference k (g_sub i g) x y (S d) ;;
                       Ok (true, m, (fst ret, set_nth (snd ret) i r))
                   end) (mask_indices m1)).
  { intros g i s _. unfold w. exists (fun m => m).
    destruct (child d1 i) as [x|], (child d2 i) as [y|]; try reflexivity.
    destruct (difference k _ x y (S d)) as [[r' m']| |]; reflexivity. }
  destruct (par_transfer noRely noRely_refl noRely_trans (w g1) _ g1 d m1 0%N
              (fun slots ms => o <- canonical k d (Branch (updateMask slots) slots) ;; Ok (o, ms)) r Hmask Hg1 (Hsw g1) H) as [HA HB].
  split.
  - intros g2 Hg2. cbn [difference]. apply (HA (w g2)); auto.
    intros i x m Hi. unfold w. destruct (child d1 i) as [x1|] eqn:E1, (child d2 i) as [y1|] eqn:E2; auto.
    intros Ec. destruct (IH (S d) x1 y1 (g_sub i g1) (x, m)) as [HI _]; eauto; [apply gaugeOk_sub; auto|].
    apply HI. apply gaugeOk_sub; auto.
  - intros limit c. cbn [differenceC]. apply HB. intros i x m Hi. unfold w.
    destruct (child d1 i) as [x1|] eqn:E1, (child d2 i) as [y1|] eqn:E2.
    + intros Ec. destruct (IH (S d) x1 y1 (g_sub i g1) (x, m)) as [_ HI]; eauto; [apply gaugeOk_sub; auto|].
      cbn [WorkOk]. exists (x, m). split; [apply HI; auto|]. cbn. auto 8.
    + intros Ew. inversion Ew; subst x m. cbn. auto 8.
    + discriminate.
    + intros Ew. inversion Ew; subst x m. cbn. auto 8.
Qed.

Theorem intersection_any fuel : forall d n n2 g1 r,
  wf d n -> wf d n2 -> gaugeOk g1 -> intersection fuel g1 n n2 d = Ok r ->
  (forall g2, gaugeOk g2 -> intersection fuel g2 n n2 d = Ok r) /\
  (forall limit c, Yields fanout noRely r c (intersectionC fuel limit n n2 d)).
Proof.
  induction fuel as [|k IH]; intros d n n2 g1 r Hwf1 Hwf2 Hg1 H; [discriminate|].
  destruct (isBranch n && isBranch n2) eqn:Hb.
  2:{ split.
      - intros g2 _. destruct n, n2; try discriminate Hb; exact H.
      - intros limit c. destruct n, n2; try discriminate Hb; cbn [intersectionC]; apply lift_yields; exact H. }
  destruct n as [a|a b|l|m1 d1]; try discriminate Hb. destruct n2 as [x|x y|l2|m2 d2]; try discriminate Hb. clear Hb.
  inversion Hwf1 as [| | |d' m' data' Hd Hlen1 Hm1 Hch1 Hp1 Hl1]; subst d' m' data'.
  inversion Hwf2 as [| | |d' m' data' _ Hlen2 Hm2 Hch2 Hp2 Hl2]; subst d' m' data'.
  assert (Hmask : maskOk (N.land m1 m2)).
  { subst m1 m2. apply maskOk_land; apply maskOk_update; auto. }
  cbn [intersection] in H. set (w := fun (g : gauge) i => match child d1 i, child d2 i with
       | Some x, Some y => intersection k (g_sub i g) x y (S d)
       | _, _ => Panic
       end).
  assert (Hsw : forall g, slot_worker (w g)
     (fun i (ret : packer T) =>
                   match child d1 i, child d2 i with
                   | Some x, Some y =>
                       '(r, m) <- intersection k (g_sub i g) x y (S d) ;;
                       Ok (true, m, (fst ret, set_nth (snd ret) i r))
                   | _, _ => Panic
                   end) (mask_indices (N.land m1 m2))).
  { intros g i s _. unfold w. exists (fun m => m).
    destruct (child d1 i) as [x|], (child d2 i) as [y|]; try reflexivity.
    destruct (intersection k _ x y (S d)) as [[r' m']| |]; reflexivity. }
  destruct (par_transfer noRely noRely_refl noRely_trans (w g1) _ g1 d (N.land m1 m2) 0%N
              (fun slots ms => o <- canonical k d (Branch (updateMask slots) slots) ;; Ok (o, ms)) r Hmask Hg1 (Hsw g1) H) as [HA HB].
  split.
  - intros g2 Hg2. cbn [intersection]. apply (HA (w g2)); auto.
    intros i x m Hi. unfold w. destruct (child d1 i) as [x1|] eqn:E1, (child d2 i) as [y1|] eqn:E2; auto.
    intros Ec. destruct (IH (S d) x1 y1 (g_sub i g1) (x, m)) as [HI _]; eauto; [apply gaugeOk_sub; auto|].
    apply HI. apply gaugeOk_sub; auto.
  - intros limit c. cbn [intersectionC]. apply HB. intros i x m Hi. unfold w.
    destruct (child d1 i) as [x1|] eqn:E1, (child d2 i) as [y1|] eqn:E2; try discriminate.
    intros Ec. destruct (IH (S d) x1 y1 (g_sub i g1) (x, m)) as [_ HI]; eauto; [apply gaugeOk_sub; auto|].
    cbn [WorkOk]. exists (x, m). split; [apply HI; auto|]. cbn. auto 8.
Qed.

Theorem where_any fuel : forall pred d n g1 r,
  wf d n -> gaugeOk g1 -> where_ fuel g1 pred n d = Ok r ->
  (forall g2, gaugeOk g2 -> where_ fuel g2 pred n d = Ok r) /\
  (forall limit c, Yields fanout noRely r c (whereC fuel limit pred n d)).
Proof.
  induction fuel as [|k IH]; intros pred d n g1 r Hwf1 Hg1 H; [discriminate|].
  destruct (isBranch n) eqn:Hb.
  2:{ split.
      - intros g2 _. destruct n; try discriminate Hb; exact H.
      - intros limit c. destruct n; try discriminate Hb; cbn [whereC]; apply lift_yields; exact H. }
  destruct n as [a|a b|l|m1 d1]; try discriminate Hb. clear Hb.
  inversion Hwf1 as [| | |d' m' data' Hd Hlen1 Hm1 Hch1 Hp1 Hl1]; subst d' m' data'.
  assert (Hmask : maskOk m1) by (subst m1; apply maskOk_update; auto).
  cbn [where_] in H. set (w := fun (g : gauge) i => match child d1 i with
       | Some x => where_ k (g_sub i g) pred x (S d)
       | None => Panic
       end).
  assert (Hsw : forall g, slot_worker (w g)
     (fun i (nodes : packer T) =>
               match child d1 i with
               | None => Panic
               | Some x =>
                   '(r, m) <- where_ k (g_sub i g) pred x (S d) ;;
                   Ok (true, m, (fst nodes, set_nth (snd nodes) i r))
               end) (mask_indices m1)).
  { intros g i s _. unfold w. exists (fun m => m).
    destruct (child d1 i) as [x|]; try reflexivity.
    destruct (where_ k _ pred x (S d)) as [[r' m']| |]; reflexivity. }
  destruct (par_transfer noRely noRely_refl noRely_trans (w g1) _ g1 d m1 0%N
              (fun slots ms => o <- canonical k d (Branch (updateMask slots) slots) ;; Ok (o, ms)) r Hmask Hg1 (Hsw g1) H) as [HA HB].
  split.
  - intros g2 Hg2. cbn [where_]. apply (HA (w g2)); auto.
    intros i x m Hi. unfold w. destruct (child d1 i) as [x1|] eqn:E1; auto.
    intros Ec. destruct (IH pred (S d) x1 (g_sub i g1) (x, m)) as [HI _]; eauto; [apply gaugeOk_sub; auto|].
    apply HI. apply gaugeOk_sub; auto.
  - intros limit c. cbn [whereC]. apply HB. intros i x m Hi. unfold w.
    destruct (child d1 i) as [x1|] eqn:E1; try discriminate.
    intros Ec. destruct (IH pred (S d) x1 (g_sub i g1) (x, m)) as [_ HI]; eauto; [apply gaugeOk_sub; auto|].
    cbn [WorkOk]. exists (x, m). split; [apply HI; auto|]. cbn. auto 8.
Qed.

(** ** SubsetOf, Equal, Reduce *)

(** A parallel loop of boolean workers, all of which return. *)
Lemma bool_loop (w : nat -> bool) g d mask (f : nat -> unit -> res (bool * Z * unit)) :
  (mask < 2 ^ 16)%N -> gaugeOk g ->
  (forall i u, In i (mask_indices mask) -> f i u = Ok (w i, 0%Z, tt)) ->
  ('(ok, _, _) <- parallel g d mask f tt ;; Ok ok) = Ok (forallb w (mask_indices mask)).
Proof.
  intros Hm Hg Hf. unfold parallel. pose proof (par_order_perm g d mask Hg) as HP.
  destruct (par_bool (fun i => Ok (w i)) f (par_order g d mask) 0%Z) as (m & E1).
  - intros i u Hi. apply Hf. eapply Permutation_in; eauto.
  - eauto.
  - rewrite E1. cbn [bind]. f_equal.
    assert (Hiff : forall l1 l2, Permutation l1 l2 -> forallb w l1 = forallb w l2).
    { induction 1; simpl; auto; try congruence. destruct (w x), (w y); auto. }
    apply Hiff; auto.
Qed.

Theorem subsetOf_any fuel : forall d n n2,
  wf d n -> wf d n2 -> fuelBin d <= fuel ->
  exists b, (forall g, gaugeOk g -> subsetOf fuel g n n2 d = Ok b) /\
    (forall limit c, Yields fanout noRely b c (subsetOfC fuel limit n n2 d)).
Proof.
  induction fuel as [|k IH]; intros d n n2 Hwf1 Hwf2 Hf; [unfold fuelBin in Hf; lia|].
  destruct (isBranch n && isBranch n2) eqn:Hb.
  2:{ assert (exists b, subsetOf (S k) (mkGauge (-1) (fun _ l => l)) n n2 d = Ok b) as (b & Eb).
      { destruct (subsetOf_wf (vok := vok) (S k) (mkGauge (-1) (fun _ l => l)) d n n2) as (b & Eb & _); auto.
        - intros p l; auto.
        - eauto. }
      exists b. split.
      - intros g _. rewrite <- Eb. destruct n, n2; try discriminate Hb; reflexivity.
      - intros limit c. destruct n, n2; try discriminate Hb; cbn [subsetOfC]; apply lift_yields; exact Eb. }
  unfold fuelBin in Hf.
  destruct n as [a|a b|l|m1 d1]; try discriminate Hb. destruct n2 as [x|x y|l2|m2 d2]; try discriminate Hb. clear Hb.
  inversion Hwf1 as [| | |d' m' data' Hd Hlen1 Hm1 Hch1 Hp1 Hl1]; subst d' m' data'.
  inversion Hwf2 as [| | |d' m' data' _ Hlen2 Hm2 Hch2 Hp2 Hl2]; subst d' m' data'.
  assert (Hmask : maskOk (N.lor m1 m2)).
  { subst m1 m2. apply maskOk_lor; apply maskOk_update; auto. }
  set (g0 := mkGauge (-1) (fun _ l => l)).
  assert (Hg0 : gaugeOk g0) by (intros p l; auto).
  set (w := fun i => match child d1 i, child d2 i with
       | None, _ => true
       | Some _, None => false
       | Some x, Some y => match subsetOf k g0 x y (S d) with Ok b => b | _ => false end
       end).
  assert (Hrec : forall i x y, child d1 i = Some x -> child d2 i = Some y ->
     (forall g, gaugeOk g -> subsetOf k g x y (S d) = Ok (w i)) /\
     (forall limit c, Yields fanout noRely (w i) c (subsetOfC k limit x y (S d)))).
  { intros i x y Ex Ey. destruct (IH (S d) x y) as (b & H1 & H2); eauto; [unfold fuelBin; lia|].
    unfold w. rewrite Ex, Ey, (H1 g0 Hg0). auto. }
  exists (forallb w (mask_indices (N.lor m1 m2))). split.
  - intros g Hg. cbn [subsetOf]. apply bool_loop; auto; [apply Hmask|].
    intros i [] _. destruct (child d1 i) as [x|] eqn:E1; [destruct (child d2 i) as [y|] eqn:E2|].
    + destruct (Hrec i x y E1 E2) as [H1 _]. rewrite H1 by (apply gaugeOk_sub; auto). reflexivity.
    + unfold w. rewrite E1, E2. reflexivity.
    + unfold w. rewrite E1. reflexivity.
  - intros limit c. cbn [subsetOfC]. apply (bool_yields noRely noRely_refl noRely_trans); auto.
    intros i _. destruct (child d1 i) as [x|] eqn:E1; [destruct (child d2 i) as [y|] eqn:E2|].
    + destruct (Hrec i x y E1 E2) as [_ H2]. exists (w i). split; auto. cbn. auto.
    + unfold w. rewrite E1, E2. cbn. auto.
    + unfold w. rewrite E1. cbn. auto.
Qed.

Theorem equal_any fuel : forall eq d n n2,
  wf d n -> wf d n2 -> fuelBin d <= fuel ->
  exists b, (forall g, gaugeOk g -> equal fuel g eq n n2 d = Ok b) /\
    (forall limit c, Yields fanout noRely b c (equalC fuel limit eq n n2 d)).
Proof.
  induction fuel as [|k IH]; intros eq d n n2 Hwf1 Hwf2 Hf; [unfold fuelBin in Hf; lia|].
  destruct (isBranch n && isBranch n2) eqn:Hb.
  2:{ assert (exists b, forall g, equal (S k) g eq n n2 d = Ok b) as (b & Eb).
      { destruct n as [a|a b|l|m1 d1], n2 as [x|x y|l2|m2 d2]; try discriminate Hb; cbn [equal]; eauto.
        destruct (length l =? length l2); eauto. }
      exists b. split; auto.
      intros limit c. destruct n, n2; try discriminate Hb; cbn [equalC]; apply lift_yields; apply Eb. }
  unfold fuelBin in Hf.
  destruct n as [a|a b|l|m1 d1]; try discriminate Hb. destruct n2 as [x|x y|l2|m2 d2]; try discriminate Hb. clear Hb.
  inversion Hwf1 as [| | |d' m' data' Hd Hlen1 Hm1 Hch1 Hp1 Hl1]; subst d' m' data'.
  inversion Hwf2 as [| | |d' m' data' _ Hlen2 Hm2 Hch2 Hp2 Hl2]; subst d' m' data'.
  assert (Hmask : maskOk m1) by (subst m1; apply maskOk_update; auto).
  cbn [equal equalC]. destruct (N.eqb_spec m1 m2) as [Hmm|Hmm].
  2:{ exists false. split; auto. intros; apply yields_ret; auto using noRely_refl. }
  assert (Hch : forall i, In i (mask_indices m1) -> exists x y, child d1 i = Some x /\ child d2 i = Some y).
  { intros i Hi. pose proof Hi as Hi2. rewrite Hm1 in Hi. rewrite Hmm, Hm2 in Hi2.
    apply mask_indices_updateMask in Hi as (x & Ex); auto. apply mask_indices_updateMask in Hi2 as (y & Ey); auto. eauto. }
  set (g0 := mkGauge (-1) (fun _ l => l)).
  assert (Hg0 : gaugeOk g0) by (intros p l; auto).
  set (w := fun i => match child d1 i, child d2 i with
       | Some x, Some y => match equal k g0 eq x y (S d) with Ok b => b | _ => false end
       | _, _ => false
       end).
  assert (Hrec : forall i x y, child d1 i = Some x -> child d2 i = Some y ->
     (forall g, gaugeOk g -> equal k g eq x y (S d) = Ok (w i)) /\
     (forall limit c, Yields fanout noRely (w i) c (equalC k limit eq x y (S d)))).
  { intros i x y Ex Ey. destruct (IH eq (S d) x y) as (b & H1 & H2); eauto; [unfold fuelBin; lia|].
    unfold w. rewrite Ex, Ey, (H1 g0 Hg0). auto. }
  exists (forallb w (mask_indices m1)). split.
  - intros g Hg. apply bool_loop; auto; [apply Hmask|].
    intros i [] Hi. destruct (Hch i Hi) as (x & y & E1 & E2). rewrite E1, E2.
    destruct (Hrec i x y E1 E2) as [H1 _]. rewrite H1 by (apply gaugeOk_sub; auto). reflexivity.
  - intros limit c. apply (bool_yields noRely noRely_refl noRely_trans); auto.
    intros i Hi. destruct (Hch i Hi) as (x & y & E1 & E2). rewrite E1, E2.
    destruct (Hrec i x y E1 E2) as [_ H2]. exists (w i). split; auto. cbn. auto.
Qed.

Theorem reduce_any fuel : forall r d n, wf d n -> maxTreeDepth - d < fuel ->
  forall limit c, Yields fanout noRely (red r n) c (reduceC fuel limit r n d).
Proof.
  induction fuel as [|k IH]; intros r d n Hwf Hf limit c; [lia|].
  destruct n as [a|a b|l|m1 d1]; try (cbn [reduceC]; apply lift_yields; reflexivity).
  inversion Hwf as [| | |d' m' data' Hd Hlen1 Hm1 Hch1 Hp1 Hl1]; subst d' m' data'.
  assert (Hmask : maskOk m1) by (subst m1; apply maskOk_update; auto).
  assert (Hch : forall i, In i (mask_indices m1) -> exists x, child d1 i = Some x).
  { intros i Hi. rewrite Hm1 in Hi. apply mask_indices_updateMask in Hi; auto. }
  cbn [reduceC].
  apply (parallel_yields fanout noRely noRely_refl noRely_trans fanout limit d m1 _ (0%N, repeat None fanout) _ _ c
           (map (fun i => mkJob i (option_map (red r) (child d1 i)) true 0) (mask_indices m1))).
  - pose proof fanout_pos; lia.
  - rewrite map_map. simpl. apply map_id.
  - apply mask_indices_NoDup. apply Hmask.
  - intros; eapply maskOk_lt; eauto.
  - intros j Hj. apply in_map_iff in Hj as (i & <- & Hi). cbn [j_slot]. destruct (Hch i Hi) as (x & Ex). rewrite Ex.
    exists (red r x). split; [|cbn; auto 8]. apply IH; eauto. lia.
  - reflexivity.
  - intros _ c1 mask' slots _ (F1 & F2 & F3). apply lift_yields. cbn [snd].
    destruct (mask_indices m1) as [|i0 is] eqn:Em.
    + cbn [foldM bind]. rewrite red_branch, <- flat_map_mask by auto. rewrite <- Hm1, Em. reflexivity.
    + rewrite <- Em in *. assert (exists x0, child d1 i0 = Some x0) as (x0 & _) by (apply Hch; rewrite Em; left; auto).
      rewrite (foldM_collect slots (fun i => match child d1 i with Some x => red r x | None => red r x0 end)).
      * cbn [bind app]. rewrite red_branch, <- flat_map_mask by auto. rewrite <- Hm1.
        f_equal. f_equal. clear - Hch. induction (mask_indices m1) as [|i l IHl]; simpl; auto.
        destruct (Hch i) as (x & Ex); [left; auto|]. rewrite Ex. simpl. f_equal. apply IHl.
        intros; apply Hch; right; auto.
      * intros i Hi. specialize (F2 (mkJob i (option_map (red r) (child d1 i)) true 0)). cbn [j_slot j_val] in F2.
        rewrite F2 by (apply in_map_iff; eauto). destruct (Hch i Hi) as (x & Ex). rewrite Ex. reflexivity.
  - intros (j & Hj & Hb). apply in_map_iff in Hj as (i & <- & _). discriminate.
Qed.

End ConcFacts.
