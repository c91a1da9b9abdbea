(** * HeapQuiet: without three elements on one path through the trie, no slot in use is ever overwritten.

    Twigs (the only nodes with a slice) hold three or more elements whose hashes select the same child at every depth
    (twig.go:12-14). Where no three elements do that there are no twigs, so no operation appends to a shared array. *)
From Verif Require Import Base Bits Env EnvFacts Node NodeWf NodeAdd NodeRemove NodeBin Tree TreeFacts.
From Verif Require Import HeapModel HeapFrame HeapOwn HeapRep HeapSim HeapSim2 HeapProg HeapProgSim.
Local Open Scope nat_scope.

(** No three different elements select the same child at every depth. *)
Definition noTriple {E : Env} {T : Type} {K : Key T} (vok : T -> Prop) : Prop :=
  forall a b c, vok a -> vok b -> vok c -> veq a b = false -> veq a c = false -> veq b c = false ->
    (forall j, j < maxTreeDepth -> digit j a = digit j b /\ digit j a = digit j c) -> False.

Section Still.
Context {E : Env} {EO : EnvOk E} {T : Type} {K : Key T} {vok : T -> Prop} {KO : KeyOk K vok} (grow : nat -> nat -> nat).
Notation obj := (obj (T := T)).
Notation heap := (heap (T := T)).
Notation M := (M (T := T)).
Notation node := (node T).
Notation wf := (wf vok).
Local Opaque maxTreeDepth fanout fb.

Definition still {A} (h : heap) (m : M A) : Prop := h_over (snd (m h)) = h_over h.

Lemma still_ret {A} h (a : A) : still h (ret a).
Proof. reflexivity. Qed.
Lemma still_fail {A} h (r : res A) : still h (fail r).
Proof. reflexivity. Qed.
Lemma still_bind {A A' B} h (m : M A) (r : res A') Rel (k : A -> M B) : sim h m r Rel -> still h m ->
  (forall a a' h1, r = Ok a' -> kept h h1 -> Rel a a' h1 -> still h1 (k a)) -> still h (bindM m k).
Proof.
  intros Hs Hm Hk. destruct (Hs Hm) as [K1 A1]. unfold still, bindM in *. destruct (m h) as [o h1]. cbn [fst snd] in *.
  destruct r as [a'| |]; cbn [agrees] in A1.
  - destruct A1 as (a & -> & HR). rewrite (Hk a a' h1); auto.
  - subst o. auto.
  - subst o. auto.
Qed.
(** When only the heap, not the result, decides about what follows. *)
Lemma still_bind_any {A B} h (m : M A) (k : A -> M B) : still h m -> (forall a h1, still h1 (k a)) -> still h (bindM m k).
Proof.
  intros Hm Hk. unfold still, bindM in *. destruct (m h) as [[a| |] h1]; cbn [fst snd] in *; auto. rewrite Hk. auto.
Qed.
Lemma still_run {A B} h (m : M A) (k : A -> M B) a h1 : m h = (Ok a, h1) -> h_over h1 = h_over h -> still h1 (k a) -> still h (bindM m k).
Proof. intros E1 O1 H. unfold still in *. rewrite (bindM_ok _ _ _ _ _ E1), H. auto. Qed.
Lemma still_read {A B} h (m : M A) (k : A -> M B) a : m h = (Ok a, h) -> still h (k a) -> still h (bindM m k).
Proof. intros E1. apply (still_run _ _ _ _ _ E1). auto. Qed.
Lemma still_reads {A B} h (m : M A) (k : A -> M B) r : m h = (r, h) -> (forall a, still h (k a)) -> still h (bindM m k).
Proof. intros E1 H. unfold still, bindM in *. rewrite E1. destruct r; cbn; auto. Qed.

Local Ltac triv := repeat match goal with |- context [if ?b then _ else _] => destruct b end; reflexivity.

(** ** newBranchFrom, Canonical *)

Lemma still_sliceBranch k d h (data : list T) (m : Z) : 3 <= length data ->
  still h (sl <~ newSlice data ;; q <~ newBranchFromH grow k d sl ;; ret (q, m)).
Proof.
  intros H3. eapply still_run; [reflexivity|reflexivity|]. apply still_bind_any; [|intros; apply still_ret].
  set (h1 := mkHeap _ _ _ _).
  destruct (newBranchFrom_own_with true d (addFastH grow k) (addFast k) (length (h_arrs h)) data (mkArray data (length data) (length data)) h1)
    as [Hov _]; auto.
  - intros p n v h0 L R Ho HL HR Hs Hb. rewrite (add_addFast NonParallel).
    apply (add_own grow true k (mkCombineArgs NonParallel veq (fun _ b => b)) p n v d h0 L R); auto.
  - apply nth_error_new.
  - apply firstn_all.
Qed.

Lemma still_canonicalBranch k d h q m ds : rep h q (Branch m ds) -> shape true d (Branch m ds) -> still h (canonicalBranchH grow k q).
Proof.
  intros Hr Hs. unfold canonicalBranchH. eapply still_read; [eapply walk_rep; eauto|].
  destruct (appendTo maxLeafLen (Branch m ds) []) as [data|] eqn:Ed; [|reflexivity].
  rewrite appendTo_spec in Ed by (cbn; lia). destruct (Nat.ltb_spec maxLeafLen (length (@nil T) + length (elems (Branch m ds)))) as [H|H]; [discriminate|].
  assert (Hle : length data <= 2) by (injection Ed as <-; exact H). clear - Hle. rename data into l. eapply still_run; [reflexivity|reflexivity|]. unfold newCanonicalH.
  eapply still_run; [reflexivity|reflexivity|]. unfold canonicalTwigH. eapply still_read.
  - eapply elemsOf_ok; [cbn; apply nth_error_new|]. cbn. apply firstn_all.
  - destruct l as [|a [|b [|c l]]]; try reflexivity. cbn in Hle. lia.
Qed.

(** ** Parallel *)

Lemma still_parallel d g dep mask (F : nat -> M (option nat * Z)) (G : nat -> res (option node * Z)) h :
  (forall i h1, kept h h1 -> sim h1 (F i) (G i) (Ropt (S d))) -> (forall i h1, kept h h1 -> still h1 (F i)) ->
  still h (parallelH g dep mask F).
Proof.
  intros HF HS. unfold parallelH.
  assert (Hgen : forall order acc data h1, kept h h1 -> still h1 (parallelH_loop F order acc data)).
  { induction order as [|i order IH]; intros acc data h1 K1; cbn [parallelH_loop]; [reflexivity|].
    eapply still_bind; [apply HF; auto|apply HS; auto|]. intros [r m] a' h2 _ K2 _. apply IH. eapply kept_trans; eauto. }
  apply Hgen. apply kept_refl.
Qed.

(** ** Nodes without twigs *)

Hypothesis Hno : noTriple vok.

(** The elements select the same child at every depth above [d]. *)
Definition pref (d : nat) (l : list T) : Prop := forall a b, In a l -> In b l -> forall j, j < d -> digit j a = digit j b.
Definition good (d : nat) (n : node) : Prop := wf d n /\ pref d (elems n).

Lemma pref_incl d l l' : incl l l' -> pref d l' -> pref d l.
Proof. intros Hi Hp a b Ha Hb. apply Hp; auto. Qed.

Lemma good_twig d l : good d (Twig l) -> False.
Proof.
  intros [Hw Hp]. inversion Hw as [| |d' l' Hd H3 Hok Hdis|]; subst. destruct l as [|a [|b [|c l]]]; cbn in H3; try lia.
  inversion Hdis as [|? ? H1 Hd1]; subst. inversion Hd1 as [|? ? H2 Hd2]; subst.
  apply (Hno a b c); try (apply Hok; cbn; auto); try (apply H1; cbn; auto); try (apply H2; cbn; auto).
  intros j Hj. split; (apply Hp; cbn; auto).
Qed.

Lemma good_child d m ds i c : good d (Branch m ds) -> child ds i = Some c -> good (S d) c.
Proof.
  intros [Hw Hp] Hc. inversion Hw as [| | |d' m' ds' Hd Hlen Hm Hch Hpl Hl]; subst. split; eauto.
  assert (Hin : forall a, In a (elems c) -> In a (elems (Branch (updateMask ds) ds)) /\ digit d a = i).
  { intros a Ha. assert (He : In a (elemso (child ds i))) by (rewrite Hc; auto). split; [|apply Hpl; auto].
    rewrite elems_branch. apply in_flat_map_child. eauto. }
  intros a b Ha Hb j Hj. destruct (Hin a Ha) as [A1 A2], (Hin b Hb) as [B1 B2].
  destruct (Nat.eq_dec j d) as [->|Hn]; [congruence|]. apply Hp; auto. lia.
Qed.

Lemma good_shape d n : good d n -> shape true d n.
Proof. intros [H _]. eapply wf_shape; eauto. Qed.
Lemma good0 n : wf 0 n -> good 0 n.
Proof. intros H. split; auto. intros a b _ _ j Hj. lia. Qed.

Local Ltac child_cases Hds Hs i ex en x nx Hx Hsx :=
  destruct (branch_child _ _ _ _ _ i Hds Hs) as [[ex en]|(x & nx & ex & en & Hx & Hsx)].

(** ** With and Without *)

Lemma still_with k : forall args h p n v d hs, rep h p n -> good d n -> still h (withH grow k (c_eq args) (c_f args) p v d hs).
Proof.
  induction k as [|k IH]; intros args h p n v d hs Hr Hg; [reflexivity|]. cbn [withH]. assert (Hs := good_shape _ _ Hg).
  inversion Hr as [p0 a Hp|p0 a b Hp|p0 r l Hp Hl|p0 m da ds Hp Hds]; subst; (eapply still_read; [apply load_ok; eassumption|]); cbv beta iota zeta.
  - triv.
  - destruct (c_eq args a v); [triv|]. destruct (c_eq args b v); [triv|]. apply still_sliceBranch. cbn. lia.
  - destruct (good_twig _ _ Hg).
  - child_cases Hds Hs (h_hash hs) Ex En x nx Hx Hsx; rewrite Ex; [reflexivity|].
    eapply still_bind; [apply (sim_with grow k args); eauto|eapply IH; eauto using good_child|].
    intros [x2 m2] a' h1 _ _ _. triv.
Qed.

Lemma still_without k : forall h p n v d hs, rep h p n -> good d n -> still h (withoutH grow k p v d hs).
Proof.
  induction k as [|k IH]; intros h p n v d hs Hr Hg; [reflexivity|]. cbn [withoutH]. assert (Hs := good_shape _ _ Hg).
  inversion Hr as [p0 a Hp|p0 a b Hp|p0 r l Hp Hl|p0 m da ds Hp Hds]; subst; (eapply still_read; [apply load_ok; eassumption|]); cbv beta iota zeta.
  - triv.
  - triv.
  - destruct (good_twig _ _ Hg).
  - child_cases Hds Hs (h_hash hs) Ex En x nx Hx Hsx; rewrite Ex; [reflexivity|].
    eapply still_bind; [apply (sim_without grow k); eauto|eapply IH; eauto using good_child|].
    intros [x2 m2] [n2 m2'] h1 _ K1 ([E1 [H1 S1]] & _). cbn [fst snd] in *.
    destruct (ptr_eqb x2 (Some x)); [reflexivity|].
    destruct (setChildP_rep (N.lor m (newMasker (h_hash hs))) da ds (h_hash hs) x2 n2) as [Q1 Q2]; [destruct H1; auto|].
    rewrite Q1. unfold newBranchH. eapply still_run; [reflexivity|reflexivity|]. apply still_bind_any; [|intros; apply still_ret].
    eapply still_canonicalBranch.
    + eapply rep_branch; [cbn; apply nth_error_new|]. eapply reps_kept; [apply kept_alloc|]. eapply reps_set; [eapply reps_kept; eauto|exact H1].
    + eapply shape_set; [exact Hs|auto].
Qed.

(** ** Combine *)

Lemma good_with d args n v r m k : good d n -> vok v -> c_eq args = veq -> cfok (vok := vok) (c_f args) -> fuelAt d <= k ->
  (forall e j, In e (elems n) -> j < d -> digit j v = digit j e) ->
  with_ k args n v d (newHasher v d) = Ok (r, m) -> good d r.
Proof.
  intros [Hw Hp] Hv Heq Hcf Hk Hd Er. destruct (with_wf d k args n v Hk Heq Hcf Hw Hv) as (r' & m' & Er' & Hr & Ha).
  rewrite Er in Er'. inversion Er'; subst r' m'. split; auto.
  assert (Hin : forall e, In e (elems r) -> In e (elems n) \/ vok e /\ veq v e = true).
  { intros e He. assert (Ho : vok e) by (eapply wf_allok; eauto).
    destruct (addres_in _ _ _ _ _ e Hcf (wf_allok _ _ Hw) Hv (wf_distinct _ _ Hr) (wf_allok _ _ Hr) Ha He); auto. }
  assert (Hdig : forall e j, In e (elems r) -> j < d -> digit j v = digit j e).
  { intros e j He Hj. destruct (Hin e He) as [Hi|[Ho Hi]]; auto. apply (veq_digit (vok := vok)); auto. }
  intros a b Ha' Hb' j Hj. rewrite <- (Hdig a j), <- (Hdig b j); auto.
Qed.

Lemma still_with2 k args h p n a b d : rep h p n -> good d n -> vok a -> vok b -> c_eq args = veq -> cfok (vok := vok) (c_f args) ->
  fuelAt d <= k -> (forall e j, In e (elems n) -> j < d -> digit j a = digit j e) ->
  still h (with2H grow k args p a b d).
Proof.
  intros Hr Hg Ha Hb Heq Hcf Hk Hd. unfold with2H.
  eapply still_bind; [apply (sim_with grow k args); eauto using good_shape|eapply still_with; eauto|].
  intros [q m1] [nq m1'] h1 E1 K1 (_ & H1 & _). cbn [fst snd] in *.
  apply still_bind_any; [|intros [q2 m2] h2; reflexivity]. eapply still_with; [exact H1|]. eapply good_with; [..|exact E1]; eauto.
Qed.

Lemma still_combine k : forall args h p p2 n n2 d, rep h p n -> rep h p2 n2 -> wf d n -> wf d n2 -> pref d (elems n ++ elems n2) ->
  c_eq args = veq -> cfok (vok := vok) (c_f args) -> fuelBin d <= k -> still h (combineH grow k args p p2 d).
Proof.
  induction k as [|k IH]; intros args h p p2 n n2 d Hr Hr2 Hw Hw2 Hpr Heq Hcf Hk; [reflexivity|]. cbn [combineH].
  assert (Hg : good d n) by (split; auto; eapply pref_incl; [|exact Hpr]; intros e He; apply in_or_app; auto).
  assert (Hg2 : good d n2) by (split; auto; eapply pref_incl; [|exact Hpr]; intros e He; apply in_or_app; auto).
  assert (Hs := good_shape _ _ Hg). assert (Hs2 := good_shape _ _ Hg2).
  assert (Hkf : fuelAt d <= k) by (unfold fuelBin, fuelAt in *; lia).
  assert (Hcff : cfok (vok := vok) (c_f (flip_args args))) by (cbn; apply cfok_flip; auto).
  assert (Hx : forall e e' j, In e (elems n) -> In e' (elems n2) -> j < d -> digit j e = digit j e').
  { intros e e' j He He' Hj. apply Hpr; auto; apply in_or_app; auto. }
  assert (Hx' : forall e e' j, In e (elems n2) -> In e' (elems n) -> j < d -> digit j e = digit j e').
  { intros e e' j He He' Hj. symmetry. auto. }
  assert (Ho : forall e, In e (elems n) -> vok e) by exact (wf_allok _ _ Hw).
  assert (Ho2 : forall e, In e (elems n2) -> vok e) by exact (wf_allok _ _ Hw2).
  inversion Hr as [p0 a Hp|p0 a b Hp|p0 r l Hp Hl|p0 m da ds Hp Hds]; subst; try (destruct (good_twig _ _ Hg); fail);
  inversion Hr2 as [p0 a2 Hp2|p0 a2 b2 Hp2|p0 r2 l2 Hp2 Hl2|p0 m2 da2 ds2 Hp2 Hds2]; subst; try (destruct (good_twig _ _ Hg2); fail);
    (eapply still_read; [apply load_ok; eassumption|]); (eapply still_read; [apply load_ok; eassumption|]); cbv beta iota zeta.
  - unfold combineLeaf1H. triv.
  - unfold combineLeaf21H. destruct (c_eq _ _ _); [triv|]. destruct (c_eq _ _ _); [triv|]. apply still_sliceBranch. cbn. lia.
  - eapply still_with; eauto.
  - unfold combineLeaf21H. destruct (c_eq _ _ _); [triv|]. destruct (c_eq _ _ _); [triv|]. apply still_sliceBranch. cbn. lia.
  - unfold combineLeaf2H, combineLeaf2H_step.
    repeat match goal with |- context [if c_eq ?x ?y ?z then _ else _] => destruct (c_eq x y z) end; cbv beta iota;
      first [triv | apply still_sliceBranch; cbn; lia].
  - eapply still_with2; eauto; [apply Ho; cbn; auto|apply Ho; cbn; auto|]. intros e j He Hj. apply Hx; cbn; auto.
  - eapply still_with; eauto.
  - eapply still_with2; eauto; [apply Ho2; cbn; auto|apply Ho2; cbn; auto|]. intros e j He Hj. apply Hx'; cbn; auto.
  - apply still_bind_any; [|intros [data ms] h1; reflexivity].
    apply (still_parallel d _ _ _ _ (fun i => match child ds i, child ds2 i with
        | None, y => Ok (y, 0%Z) | x, None => Ok (x, 0%Z)
        | Some x, Some y => '(r, m) <- combine k (c_sub i args) x y (S d) ;; Ok (Some r, m) end)).
    + intros i h1 K1. pose proof (Ropt_child d h1 m da ds i 0%Z (reps_kept _ _ _ _ K1 Hds) Hs) as Hy.
      pose proof (Ropt_child d h1 m2 da2 ds2 i 0%Z (reps_kept _ _ _ _ K1 Hds2) Hs2) as Hy'.
      child_cases Hds Hs i Ex En x nx Hx1 Hsx; child_cases Hds2 Hs2 i Ey Em y ny Hy1 Hsy;
        rewrite Ex, En in *; rewrite Ey, Em in *; try (apply sim_ret; auto; fail).
      eapply sim_bind; [apply sim_combine; eauto using rep_kept|apply mono_combineH|intros [? ?]; apply mono_ret|].
      intros [q mq] [nq mq'] h2 K2 (E2 & H2 & S2). cbn [fst snd] in *. subst mq'. apply sim_ret.
      split; auto. split; [constructor; auto|]. apply shapeo_Some; auto.
    + intros i h1 K1. child_cases Hds Hs i Ex En x nx Hx1 Hsx; child_cases Hds2 Hs2 i Ey Em y ny Hy1 Hsy;
        rewrite Ex, Ey; try reflexivity.
      apply still_bind_any; [|intros [q mq] h2; reflexivity].
      destruct (good_child _ _ _ _ _ Hg En) as [Wx Px], (good_child _ _ _ _ _ Hg2 Em) as [Wy Py].
      assert (Hd : d < maxTreeDepth) by (inversion Hs; auto).
      eapply IH; eauto using rep_kept; [|unfold fuelBin in *; lia].
      assert (Hcx : forall e, In e (elems nx) -> In e (elems (Branch m ds)) /\ digit d e = i).
      { intros e He. inversion Hw as [| | |d' m' ds' Hd' Hlen Hm Hch Hpl Hl]; subst.
        assert (Hi : In e (elemso (child ds i))) by (rewrite En; auto). split; [|apply Hpl; auto].
        rewrite elems_branch. apply in_flat_map_child. eauto. }
      assert (Hcy : forall e, In e (elems ny) -> In e (elems (Branch m2 ds2)) /\ digit d e = i).
      { intros e He. inversion Hw2 as [| | |d' m' ds' Hd' Hlen Hm Hch Hpl Hl]; subst.
        assert (Hi : In e (elemso (child ds2 i))) by (rewrite Em; auto). split; [|apply Hpl; auto].
        rewrite elems_branch. apply in_flat_map_child. eauto. }
      assert (Hc : forall e, In e (elems nx ++ elems ny) -> In e (elems (Branch m ds) ++ elems (Branch m2 ds2)) /\ digit d e = i).
      { intros e He. apply in_app_or in He as [He|He]; [destruct (Hcx e He)|destruct (Hcy e He)]; split; auto; apply in_or_app; auto. }
      intros e e' He He' j Hj. destruct (Hc e He) as [A1 A2], (Hc e' He') as [B1 B2].
      destruct (Nat.eq_dec j d) as [->|Hn]; [congruence|]. apply Hpr; auto. lia.
Qed.

(** ** Difference, Intersection, Where *)

Lemma still_parBranch k d h data ds (ms : Z) : d < maxTreeDepth -> reps h data ds -> length ds = fanout ->
  (forall i c, child ds i = Some c -> shape true (S d) c) ->
  still h (q <~ newBranchH (updateMaskP data, data) ;; o <~ canonicalBranchH grow k q ;; ret (o, ms)).
Proof.
  intros Hd Hr Hl Hs. rewrite (updateMaskP_rep _ _ _ Hr). unfold newBranchH. eapply still_run; [reflexivity|reflexivity|].
  apply still_bind_any; [|intros; apply still_ret]. eapply (still_canonicalBranch k d).
  - eapply rep_branch; [cbn; apply nth_error_new|]. eapply reps_kept; [apply kept_alloc|exact Hr].
  - apply par_branch_shape; auto.
Qed.

Lemma has_at_read fuel p e d (h : heap) : snd (has_atH fuel p e d h) = h.
Proof.
  unfold has_atH, bindM. enough (H : forall fuel p hs, snd (getH fuel p e hs h) = h).
  { specialize (H fuel p (newHasher e d)). destruct (getH _ _ _ _ h) as [[o| |] h']; auto. }
  clear. induction fuel as [|k IH]; intros p hs; [reflexivity|]. cbn [getH]. unfold bindM at 1, load.
  destruct (nth_error (h_objs h) p) as [[a|a b|r len|m d]|]; try reflexivity.
  - unfold elemsOf, loadArr, bindM. cbn [fst snd]. destruct (nth_error (h_arrs h) r); reflexivity.
  - destruct (childP d (h_hash hs)); [apply IH|reflexivity].
Qed.
Lemma still_has_at {B} h fuel p e d (k : bool -> M B) : (forall b, still h (k b)) -> still h (bindM (has_atH fuel p e d) k).
Proof.
  intros H. eapply still_reads with (r := fst (has_atH fuel p e d h)); auto.
  rewrite <- (has_at_read fuel p e d h) at 3. destruct (has_atH fuel p e d h); auto.
Qed.

Lemma good_without d n v r m k : good d n -> vok v -> fuelAt d <= k ->
  without k n v d (newHasher v d) = Ok (Some r, m) -> good d r.
Proof.
  intros [Hw Hp] Hv Hk Er. destruct (without_wf k d n v Hw Hv Hk) as (o & m' & Er' & Ho & Ha & _).
  rewrite Er in Er'. inversion Er'; subst. assert (Hr : wf d r) by (apply Ho; auto). split; auto.
  eapply pref_incl; [|exact Hp]. intros e He. eapply remres_in; [eapply wf_distinct|eapply wf_allok| |]; eauto.
Qed.

Lemma still_difference k : forall g h p p2 n n2 d, rep h p n -> rep h p2 n2 -> good d n -> wf d n2 -> fuelBin d <= k ->
  still h (differenceH grow k g p p2 d).
Proof.
  induction k as [|k IH]; intros g h p p2 n n2 d Hr Hr2 Hg Hw2 Hk; [reflexivity|]. cbn [differenceH].
  assert (Hs := good_shape _ _ Hg). assert (Hs2 := wf_shape _ _ Hw2).
  assert (Hkf : fuelAt d <= k) by (unfold fuelBin, fuelAt in *; lia).
  inversion Hr as [p0 a Hp|p0 a b Hp|p0 r l Hp Hl|p0 m da ds Hp Hds]; subst; try (destruct (good_twig _ _ Hg); fail);
    (eapply still_read; [apply load_ok; eassumption|]); cbv beta iota zeta.
  - apply still_has_at. intros []; reflexivity.
  - apply still_has_at. intros x. apply still_has_at. intros y. destruct x, y; reflexivity.
  - assert (Hd : d < maxTreeDepth) by (inversion Hs; auto).
    inversion Hr2 as [p0 a2 Hp2|p0 a2 b2 Hp2|p0 r2 l2 Hp2 Hl2|p0 m2 da2 ds2 Hp2 Hds2]; subst;
      (eapply still_read; [apply load_ok; eassumption|]); cbv beta iota zeta.
    + eapply still_without; eauto.
    + assert (Hv : vok a2 /\ vok b2) by (inversion Hw2; auto). destruct Hv as [Hv1 Hv2].
      eapply still_bind; [apply sim_without; eauto|eapply still_without; eauto|].
      intros [o1 m1] [o1' m1'] h1 E1 K1 [(_ & H1 & S1) _]. cbn [fst snd] in *. destruct H1 as [|q nq H1]; [reflexivity|].
      apply still_bind_any; [|intros [o2 mm] h2; reflexivity]. eapply still_without; [exact H1|]. eapply good_without; [..|exact E1]; eauto.
    + reflexivity.
    + set (F := fun i => match childP da i, childP da2 i with | x, None => ret (x, 0%Z) | None, Some _ => fail Panic
          | Some x, Some y => differenceH grow k (g_sub i g) x y (S d) end).
      set (G := fun i => match child ds i, child ds2 i with
          | x, None => Ok (x, 0%Z) | None, Some _ => Panic
          | Some x, Some y => difference k (g_sub i g) x y (S d) end).
      assert (HF : forall i h1, kept h h1 -> sim h1 (F i) (G i) (Ropt (S d))).
      { intros i h1 K1. unfold F, G. pose proof (Ropt_child d h1 m da ds i 0%Z (reps_kept _ _ _ _ K1 Hds) Hs) as Hx.
        child_cases Hds Hs i Ex En x nx Hx1 Hsx; child_cases Hds2 Hs2 i Ey Em y ny Hy1 Hsy;
          rewrite Ex, En in *; rewrite Ey, Em; try (apply sim_ret; auto; fail); [apply sim_panic|].
        apply sim_difference; eauto using rep_kept. }
      eapply still_bind.
      * apply (sim_parallel d _ _ _ F G); [|unfold F; intros i; destruct (childP da i), (childP da2 i);
          first [apply mono_ret|apply mono_fail|apply mono_differenceH]|exact HF].
        instantiate (1 := fun i s => rm <- G i ;; Ok (true, snd rm, (fst s, set_nth (snd s) i (fst rm)))).
        intros i s _. exists (fun m => m). reflexivity.
      * apply (still_parallel d _ _ _ _ G); auto. intros i h1 K1. unfold F.
        child_cases Hds Hs i Ex En x nx Hx1 Hsx; child_cases Hds2 Hs2 i Ey Em y ny Hy1 Hsy; rewrite Ex, Ey; try reflexivity.
        eapply IH; eauto using rep_kept, good_child; [inversion Hw2; eauto|unfold fuelBin in *; lia].
      * intros [data ms] [[bb ms'] s'] h1 _ K1 (E1 & H1 & L1 & S1). cbn [fst snd] in *. eapply still_parBranch; eauto.
Qed.

Lemma still_intersection k : forall g h p p2 n n2 d, rep h p n -> rep h p2 n2 -> good d n -> shape true d n2 ->
  still h (intersectionH grow k g p p2 d).
Proof.
  induction k as [|k IH]; intros g h p p2 n n2 d Hr Hr2 Hg Hs2; [reflexivity|]. cbn [intersectionH].
  assert (Hs := good_shape _ _ Hg).
  assert (L1 : forall q a q2, still h (intersectLeaf1H k q a q2 d)).
  { intros q a q2. unfold intersectLeaf1H. apply still_has_at. intros []; reflexivity. }
  assert (L2 : forall q a b q2, still h (intersectLeaf2H k q a b q2 d)).
  { intros q a b q2. unfold intersectLeaf2H. apply still_has_at. intros x. apply still_has_at. intros y. destruct x, y; reflexivity. }
  inversion Hr as [p0 a Hp|p0 a b Hp|p0 r l Hp Hl|p0 m da ds Hp Hds]; subst; try (destruct (good_twig _ _ Hg); fail);
    (eapply still_read; [apply load_ok; eassumption|]); cbv beta iota zeta; auto.
  assert (Hd : d < maxTreeDepth) by (inversion Hs; auto).
  inversion Hr2 as [p0 a2 Hp2|p0 a2 b2 Hp2|p0 r2 l2 Hp2 Hl2|p0 m2 da2 ds2 Hp2 Hds2]; subst;
    (eapply still_read; [apply load_ok; eassumption|]); cbv beta iota zeta; auto; [reflexivity|].
  set (F := fun i => match childP da i, childP da2 i with
      | Some x, Some y => intersectionH grow k (g_sub i g) x y (S d) | _, _ => fail Panic end).
  set (G := fun i => match child ds i, child ds2 i with
      | Some x, Some y => intersection k (g_sub i g) x y (S d) | _, _ => Panic end).
  assert (HF : forall i h1, kept h h1 -> sim h1 (F i) (G i) (Ropt (S d))).
  { intros i h1 K1. unfold F, G.
    child_cases Hds Hs i Ex En x nx Hx1 Hsx; child_cases Hds2 Hs2 i Ey Em y ny Hy1 Hsy; rewrite Ex, En, ?Ey, ?Em; try apply sim_panic.
    apply sim_intersection; eauto using rep_kept. }
  eapply still_bind.
  - apply (sim_parallel d _ _ _ F G); [|unfold F; intros i; destruct (childP da i), (childP da2 i);
      first [apply mono_fail|apply mono_intersectionH]|exact HF].
    instantiate (1 := fun i s => rm <- G i ;; Ok (true, snd rm, (fst s, set_nth (snd s) i (fst rm)))).
    intros i s _. exists (fun m => m). reflexivity.
  - apply (still_parallel d _ _ _ _ G); auto. intros i h1 K1. unfold F.
    child_cases Hds Hs i Ex En x nx Hx1 Hsx; child_cases Hds2 Hs2 i Ey Em y ny Hy1 Hsy; rewrite Ex, ?Ey; try reflexivity.
    eapply IH; eauto using rep_kept, good_child.
  - intros [data ms] [[bb ms'] s'] h1 _ K1 (E1 & H1 & L & S1). cbn [fst snd] in *. eapply still_parBranch; eauto.
Qed.

Lemma still_where k : forall g pred h p n d, rep h p n -> good d n -> still h (whereH grow k g pred p d).
Proof.
  induction k as [|k IH]; intros g pred h p n d Hr Hg; [reflexivity|]. cbn [whereH]. assert (Hs := good_shape _ _ Hg).
  inversion Hr as [p0 a Hp|p0 a b Hp|p0 r l Hp Hl|p0 m da ds Hp Hds]; subst; try (destruct (good_twig _ _ Hg); fail);
    (eapply still_read; [apply load_ok; eassumption|]); cbv beta iota zeta.
  - triv.
  - destruct (pred a), (pred b); reflexivity.
  - assert (Hd : d < maxTreeDepth) by (inversion Hs; auto).
    set (F := fun i => match childP da i with None => fail Panic | Some x => whereH grow k (g_sub i g) pred x (S d) end).
    set (G := fun i => match child ds i with None => Panic | Some x => where_ k (g_sub i g) pred x (S d) end).
    assert (HF : forall i h1, kept h h1 -> sim h1 (F i) (G i) (Ropt (S d))).
    { intros i h1 K1. unfold F, G. child_cases Hds Hs i Ex En x nx Hx1 Hsx; rewrite Ex, En; [apply sim_panic|].
      apply (sim_where (vok := vok)); eauto using rep_kept. apply (good_child _ _ _ _ _ Hg En). }
    eapply still_bind.
    + apply (sim_parallel d _ _ _ F G); [|unfold F; intros i; destruct (childP da i);
        first [apply mono_fail|apply mono_whereH]|exact HF].
      instantiate (1 := fun i s => rm <- G i ;; Ok (true, snd rm, (fst s, set_nth (snd s) i (fst rm)))).
      intros i s _. exists (fun m => m). reflexivity.
    + apply (still_parallel d _ _ _ _ G); auto. intros i h1 K1. unfold F.
      child_cases Hds Hs i Ex En x nx Hx1 Hsx; rewrite Ex; [reflexivity|]. eapply IH; eauto using rep_kept, good_child.
    + intros [data ms] [[bb ms'] s'] h1 _ K1 (E1 & H1 & L & S1). cbn [fst snd] in *.
      destruct (_ && _)%bool; [reflexivity|]. eapply still_parBranch; eauto.
Qed.

(** ** Programs *)

Lemma tok_good u n : tok vok u -> t_root u = Some n -> good 0 n.
Proof. intros [H _] En. apply good0. apply H; auto. Qed.
Lemma pref0 l : pref 0 l.
Proof. intros a b _ _ j Hj. lia. Qed.
Lemma treeFuel_bin : fuelBin 0 <= treeFuel.
Proof. unfold fuelBin, treeFuel. lia. Qed.

Local Ltac root H n := let Hr := fresh "Hr" in destruct H as (Hr & _ & ?); inversion Hr as [?|? n ? ? ?]; subst.

Lemma still_makeSet (st : state (T := T)) m : still (st_heap st) m -> h_over (st_heap (makeSet st m)) = h_over (st_heap st).
Proof. intros H. rewrite makeSet_heap. exact H. Qed.
Lemma still_changeBuilder (st : state (T := T)) b m r : bldSim (st_heap st) (m (st_heap st)) r ->
  h_over (st_heap (changeBuilder st b m)) = h_over (st_heap st).
Proof. intros [H _]. unfold changeBuilder. destruct (m (st_heap st)) as [[x| |] h']; auto. Qed.

Theorem step_still st ps c : related (vok := vok) st ps -> cmdOk (vok := vok) c ->
  h_over (st_heap (step grow st c)) = h_over (st_heap st).
Proof.
  intros (Hi & Hs & Hb) Hok.
  assert (HS : forall i t, nth_error (st_sets st) i = Some t -> exists u, setRel (vok := vok) (st_heap st) t u).
  { intros i t Ht. destruct (all2_nth _ _ _ _ _ Hs Ht) as (u & _ & H). eauto. }
  assert (HB : forall i t, nth_error (st_builders st) i = Some t -> exists u, bldRel (vok := vok) (st_heap st) t u).
  { intros i t Ht. destruct (all2_nth _ _ _ _ _ Hb Ht) as (u & _ & H). eauto. }
  assert (Hf := treeFuel_bin).
  destruct c as [|b v|b v|b|s v|s v|f s u|s u|s u|pred s]; cbn [step cmdOk] in *; auto;
    try (destruct (nth_error (st_builders st) b) as [t|] eqn:Eb; auto; destruct (HB _ _ Eb) as (w & Hw));
    try (destruct (nth_error (st_sets st) s) as [t|] eqn:Es; auto; destruct (HS _ _ Es) as (w & (Hr & Hc & Hw)));
    try (destruct (nth_error (st_sets st) u) as [t'|] eqn:Es'; auto; destruct (HS _ _ Es') as (w' & (Hr' & Hc' & Hw'))).
  - eapply still_changeBuilder. apply (bldSim_add (vok := vok)); eauto.
  - eapply still_changeBuilder. apply (bldSim_remove (vok := vok)); eauto.
  - apply still_makeSet. unfold tH_with. destruct (pt_root t) as [p|]; [|reflexivity].
    destruct (t_root w) as [n|] eqn:Ew; inversion Hr; subst. apply still_bind_any; [|intros [? ?] ?; reflexivity].
    eapply (still_with treeFuel (mkCombineArgs NonParallel veq (fun _ b => b))); eauto using tok_good.
  - apply still_makeSet. unfold tH_without. destruct (pt_root t) as [p|]; [|reflexivity].
    destruct (t_root w) as [n|] eqn:Ew; inversion Hr; subst. apply still_bind_any; [|intros [? ?] ?; reflexivity].
    eapply still_without; eauto using tok_good.
  - apply still_makeSet. unfold tH_combine. destruct (pt_root t) as [p|]; [|reflexivity]. destruct (pt_root t') as [p'|]; [|reflexivity].
    destruct (t_root w) as [n|] eqn:Ew, (t_root w') as [n'|] eqn:Ew'; inversion Hr; inversion Hr'; subst.
    apply still_bind_any; [|intros [? ?] ?; reflexivity].
    destruct (tok_good _ _ Hw Ew), (tok_good _ _ Hw' Ew'). eapply still_combine; eauto using pref0.
  - apply still_makeSet. unfold tH_difference. destruct (pt_root t) as [p|]; [|reflexivity]. destruct (pt_root t') as [p'|]; [|reflexivity].
    destruct (t_root w) as [n|] eqn:Ew, (t_root w') as [n'|] eqn:Ew'; inversion Hr; inversion Hr'; subst.
    apply still_bind_any; [|intros [? ?] ?; reflexivity].
    destruct (tok_good _ _ Hw' Ew'). eapply still_difference; eauto using tok_good.
  - apply still_makeSet. unfold tH_intersection. destruct (pt_root t) as [p|]; [|reflexivity]. destruct (pt_root t') as [p'|]; [|reflexivity].
    destruct (t_root w) as [n|] eqn:Ew, (t_root w') as [n'|] eqn:Ew'; inversion Hr; inversion Hr'; subst.
    destruct (_ <? _)%Z; (apply still_bind_any; [|intros [? ?] ?; reflexivity]); eapply still_intersection; eauto using tok_good, good_shape.
  - apply still_makeSet. unfold tH_where. destruct (pt_root t) as [p|]; [|reflexivity].
    destruct (t_root w) as [n|] eqn:Ew; inversion Hr; subst. apply still_bind_any; [|intros [? ?] ?; reflexivity].
    eapply still_where; eauto using tok_good.
Qed.

Theorem run_still cs : forall st ps, related (vok := vok) st ps -> Forall (cmdOk (vok := vok)) cs ->
  related (vok := vok) (run grow cs st) (prun cs ps) /\ h_over (st_heap (run grow cs st)) = h_over (st_heap st).
Proof.
  induction cs as [|c cs IH]; intros st ps Hr Hok; [auto|].
  change (run grow (c :: cs) st) with (run grow cs (step grow st c)). change (prun (c :: cs) ps) with (prun cs (pstep ps c)).
  inversion Hok as [|c' cs' Hc Hcs]; subst. pose proof (step_still st ps c Hr Hc) as Ho.
  destruct (IH (step grow st c) (pstep ps c)) as [H1 H2]; auto; [apply related_step; auto|]. split; auto. congruence.
Qed.

End Still.
