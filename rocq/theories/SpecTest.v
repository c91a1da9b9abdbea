(** * SpecTest: what the test helpers accept (C62) and how often they rerun a test (C63). *)
From Coq Require Import List Bool Arith NArith Lia Permutation.
Import ListNotations.
From Verif Require Import Base Bits Env EnvFacts Node NodeWf NodeAdd NodeRemove NodeBin NodeBin2 Tree TreeFacts TestSupport.

(** Two lists hold the same elements, up to [deq], in some order. *)
Definition sameUpTo {A} (deq : A -> A -> bool) (u v : list A) : Prop := exists l, Permutation l v /\ Forall2 (fun a b => deq a b = true) u l.

Section Same.
Context {A : Type} (deq : A -> A -> bool).

Lemma tryIndices_some a v order j : tryIndices deq a v order = Some j -> In j order /\ exists b, nth_error v j = Some b /\ deq a b = true.
Proof.
  induction order as [|i order IH]; cbn; [discriminate|]. destruct (nth_error v i) as [b|] eqn:Eb.
  - destruct (deq a b) eqn:Ed.
    + intros H. injection H as <-. split; [left; auto|]. eauto.
    + intros H. destruct (IH H). auto.
  - intros H. destruct (IH H). auto.
Qed.
Lemma tryIndices_none a v order : tryIndices deq a v order = None -> forall j b, In j order -> nth_error v j = Some b -> deq a b = false.
Proof.
  induction order as [|i order IH]; cbn; [intros _ j b []|]. destruct (nth_error v i) as [b|] eqn:Eb.
  - destruct (deq a b) eqn:Ed; [discriminate|]. intros H j b' [<-|Hj] E1; [congruence|eauto].
  - intros H j b' [<-|Hj] E1; [congruence|eauto].
Qed.

(** The elements at some positions. *)
Definition at_ (v : list A) (ix : list nat) : list A := flat_map (fun j => match nth_error v j with Some b => [b] | None => [] end) ix.

Lemma at_perm v ix ix' : Permutation ix ix' -> Permutation (at_ v ix) (at_ v ix').
Proof. intros H. unfold at_. induction H; cbn; auto; [apply Permutation_app_head; auto|rewrite !app_assoc; apply Permutation_app_tail, Permutation_app_comm|etransitivity; eauto]. Qed.
Lemma remove_perm j (ix : list nat) : NoDup ix -> In j ix -> Permutation ix (j :: remove Nat.eq_dec j ix).
Proof.
  induction ix as [|i ix IH]; cbn; [tauto|]. intros Hn Hj. inversion Hn as [|? ? Hi Hn']; subst. destruct (Nat.eq_dec j i) as [->|Hd].
  - rewrite notin_remove by auto. auto.
  - destruct Hj as [->|Hj]; [congruence|]. rewrite perm_swap. apply perm_skip. auto.
Qed.
Lemma remove_nodup j (ix : list nat) : NoDup ix -> NoDup (remove Nat.eq_dec j ix).
Proof.
  induction ix as [|i ix IH]; cbn; auto. intros Hn. inversion Hn as [|? ? Hi Hn']; subst. destruct (Nat.eq_dec j i); auto.
  constructor; auto. intros H. apply in_remove in H as [H _]. auto.
Qed.
Lemma in_at v ix b : In b (at_ v ix) <-> exists j, In j ix /\ nth_error v j = Some b.
Proof.
  unfold at_. rewrite in_flat_map. split; intros (j & H1 & H2); exists j; split; auto.
  - destruct (nth_error v j); [destruct H2 as [->|[]]; auto|destruct H2].
  - rewrite H2. left. auto.
Qed.
Lemma at_seq v : at_ v (seq 0 (length v)) = v.
Proof.
  unfold at_. assert (H : forall w v : list A, flat_map (fun j => match nth_error (w ++ v) j with Some b => [b] | None => [] end) (seq (length w) (length v)) = v).
  { intros w v0. revert w. induction v0 as [|b v0 IH]; intros w; cbn; auto. rewrite nth_error_app2 by lia. rewrite Nat.sub_diag. cbn. f_equal.
    specialize (IH (w ++ [b])). rewrite <- app_assoc in IH. cbn in IH. rewrite app_length in IH. cbn in IH. rewrite Nat.add_1_r in IH. exact IH. }
  exact (H [] v).
Qed.

Lemma forall2_perm (R : A -> A -> Prop) u u' l : Permutation u u' -> Forall2 R u l -> exists l', Permutation l l' /\ Forall2 R u' l'.
Proof.
  intros H. revert l. induction H as [|x u u' H IH|x y u|u u1 u2 H1 IH1 H2 IH2]; intros l Hl.
  - exists l. auto.
  - inversion Hl as [|? b ? l0 Hx Hl']; subst. destruct (IH l0 Hl') as (l' & P & F). exists (b :: l'). split; auto.
  - inversion Hl as [|? b ? l0 Hx Hl']; subst. inversion Hl' as [|? c ? l1 Hy Hl'']; subst. exists (c :: b :: l1). split; [apply perm_swap|]. auto.
  - destruct (IH1 l Hl) as (l1 & P1 & F1). destruct (IH2 l1 F1) as (l2 & P2 & F2). exists l2. split; auto. etransitivity; eauto.
Qed.
Lemma forall2_split (R : A -> A -> Prop) u l b l1 : Forall2 R u l -> Permutation l (b :: l1) ->
  exists c u1 l2, Permutation u (c :: u1) /\ R c b /\ Permutation l2 l1 /\ Forall2 R u1 l2.
Proof.
  intros H. revert b l1. induction H as [|c d u l Hc Hl IH]; intros b l1 Hp; [apply Permutation_nil in Hp; discriminate|].
  assert (Hin : In b (d :: l)) by (eapply Permutation_in; [apply Permutation_sym; exact Hp|left; auto]). destruct Hin as [->|Hin].
  - apply Permutation_cons_inv in Hp. exists c, u, l. auto.
  - apply in_split in Hin as (x & y & ->).
    destruct (IH b (x ++ y)) as (c' & u1 & l2 & P1 & Hr & P2 & F); [apply Permutation_sym, Permutation_middle|].
    exists c', (c :: u1), (d :: l2). split; [rewrite P1; apply perm_swap|]. split; auto. split; [|constructor; auto].
    rewrite P2. apply Permutation_cons_inv with b. rewrite <- Hp. rewrite perm_swap. apply perm_skip. apply Permutation_middle.
Qed.

Lemma matchAll_spec pick v : pickOk pick ->
  (forall a b, deq a b = true -> deq b a = true) -> (forall a b c, deq a b = true -> deq b c = true -> deq a c = true) ->
  forall us round ix, NoDup ix -> length us = length (at_ v ix) ->
  matchAll deq pick round us v ix = true <-> sameUpTo deq us (at_ v ix).
Proof.
  intros Hpick Hsym Htr. induction us as [|a us IH]; intros round ix Hn Hlen; cbn [matchAll].
  - split; auto. intros _. exists []. destruct (at_ v ix); [auto|discriminate].
  - destruct (tryIndices deq a v (pick round ix)) as [j|] eqn:Ej.
    + apply tryIndices_some in Ej as (Hj & b & Hb & Hab). eapply Permutation_in in Hj; [|apply Hpick].
      assert (Hp : Permutation (at_ v ix) (b :: at_ v (remove Nat.eq_dec j ix))).
      { rewrite (at_perm _ _ _ (remove_perm _ _ Hn Hj)). unfold at_ at 1. cbn [flat_map]. rewrite Hb. reflexivity. }
      rewrite IH; [|apply remove_nodup; auto|rewrite (Permutation_length Hp) in Hlen; cbn in Hlen; lia]. split.
      * intros (l & P & F). exists (b :: l). split; [rewrite Hp; auto|]. constructor; auto.
      * intros (l & P & F). inversion F as [|? b' ? l0 Hb' F']; subst. rewrite Hp in P.
        destruct (Permutation_vs_cons_inv P) as (x & y & E1). 
        destruct x as [|d x].
        { cbn in E1. injection E1 as -> ->. exists y. split; auto. eapply Permutation_cons_inv; eauto. }
        cbn in E1. injection E1 as -> ->.
        assert (P' : Permutation (d :: x ++ y) (at_ v (remove Nat.eq_dec j ix))).
        { apply Permutation_cons_inv with b. rewrite <- P. rewrite perm_swap. apply perm_skip. apply Permutation_middle. }
        destruct (forall2_split _ _ _ b (x ++ y) F') as (c & u1 & l2 & P1 & Hr & P2 & F1); [apply Permutation_sym, Permutation_middle|].
        (* a ~ d, c ~ b, a ~ b: give d to c. *)
        assert (Hcd : deq c d = true) by eauto.
        destruct (forall2_perm (fun a b => deq a b = true) (c :: u1) us (d :: l2) (Permutation_sym P1)) as (l' & P3 & F3); [constructor; auto|].
        exists l'. split; auto. rewrite <- P3, <- P'. auto.
    + split; [discriminate|]. intros (l & P & F). exfalso. inversion F as [|? b ? l0 Hb F']; subst.
      assert (Hin : In b (at_ v ix)) by (eapply Permutation_in; [exact P|left; auto]). apply in_at in Hin as (j & Hj & Eb).
      rewrite (tryIndices_none _ _ _ Ej j b) in Hb; auto; [discriminate|]. eapply Permutation_in; [apply Permutation_sym, Hpick|auto].
Qed.

(** Arrays and slices: ElementsMatch accepts them exactly if they hold the same elements in some order and number, whatever order the
    run time gives to maps. Elements need not be equal to themselves (like NaN). *)
Lemma c62_slices pick (u v : list A) : pickOk pick ->
  (forall a b, deq a b = true -> deq b a = true) -> (forall a b c, deq a b = true -> deq b c = true -> deq a c = true) ->
  sameSlices deq pick u v = true <-> sameUpTo deq u v.
Proof.
  intros Hp Hs Ht. unfold sameSlices. destruct (Nat.eqb_spec (length v) (length u)) as [He|He].
  - assert (Hr : Permutation (at_ v (rev (seq 0 (length v)))) v) by (rewrite (at_perm _ _ _ (Permutation_sym (Permutation_rev _))), at_seq; auto).
    rewrite matchAll_spec; auto.
    + split; intros (l & P & F).
      * destruct (forall2_perm _ _ u l (Permutation_sym (Permutation_rev u)) F) as (l' & P1 & F1). exists l'. split; auto. rewrite <- P1, P. auto.
      * destruct (forall2_perm _ _ (rev u) l (Permutation_rev u) F) as (l' & P1 & F1). exists l'. split; auto. rewrite <- P1, P. auto using Permutation_sym.
    + apply NoDup_rev, seq_NoDup.
    + rewrite rev_length, (Permutation_length Hr). auto.
  - split; [discriminate|]. intros (l & P & F). apply Permutation_length in P. destruct He. rewrite <- P. clear -F. induction F; cbn; auto.
Qed.

End Same.

(** Strings: equal strings of one character or none match, but two strings of the same characters need not match, and strings of
    different lengths make the helper panic. *)
Lemma c62_strings_refuted : exists u v : list N, Permutation u v /\ sameStrings u v = Ok false.
Proof. exists [97; 98]%N, [98; 97]%N. split; [apply perm_swap|]. vm_compute. reflexivity. Qed.
Lemma c62_strings_panic : forall a b l, sameStrings (a :: b :: l) [] = Panic.
Proof. intros. unfold sameStrings, sortSlice. cbn. reflexivity. Qed.
(** A string matches itself if its bytes ascend. *)
Lemma c62_strings_ascending (u : list N) : (forall i x y, nth_error u i = Some x -> nth_error u (S i) = Some y -> (x <= y)%N) -> sameStrings u u = Ok true.
Proof.
  intros Hu.
  assert (Hs : forall todo i, (1 <= i)%nat -> (i + todo <= length u \/ todo = 0)%nat -> insertAll (fun cur i j => lessBytes cur u i j) todo i u = Ok u).
  { induction todo as [|todo IH]; intros i Hi Hl; cbn [insertAll]; auto. destruct i as [|i]; [lia|]. cbn [moveDown]. unfold lessBytes.
    destruct (nth_error u (S i)) as [y|] eqn:Ey; [|apply nth_error_None in Ey; lia]. destruct (nth_error u i) as [x|] eqn:Ex; [|apply nth_error_None in Ex; lia].
    specialize (Hu i x y Ex Ey). replace (N.ltb y x) with false by (symmetry; apply N.ltb_ge; auto). cbn [bind]. apply IH; lia. }
  assert (Hs1 : sortSlice (fun cur i j => lessBytes cur u i j) u = Ok u) by (unfold sortSlice; apply Hs; lia).
  assert (Hs2 : forall todo i, (1 <= i)%nat -> (i + todo <= length u \/ todo = 0)%nat -> insertAll (fun cur i j => lessBytes u cur i j) todo i u = Ok u).
  { induction todo as [|todo IH]; intros i Hi Hl; cbn [insertAll]; auto. destruct i as [|i]; [lia|]. cbn [moveDown]. unfold lessBytes.
    destruct (nth_error u (S i)) as [y|] eqn:Ey; [|apply nth_error_None in Ey; lia]. destruct (nth_error u i) as [x|] eqn:Ex; [|apply nth_error_None in Ex; lia].
    specialize (Hu i x y Ex Ey). replace (N.ltb y x) with false by (symmetry; apply N.ltb_ge; auto). cbn [bind]. apply IH; lia. }
  unfold sameStrings. rewrite Hs1. cbn [bind]. unfold sortSlice. rewrite Hs2 by lia. cbn [bind]. f_equal. induction u as [|x l IH]; cbn; auto.
  rewrite N.eqb_refl. cbn [andb]. clear. induction l; cbn; auto. rewrite N.eqb_refl. auto.
Qed.

(** Maps: only empty ones match. *)
Lemma c62_maps {K V} (deq : V -> V -> bool) next (x y : list (K * V)) : sameMaps deq next x y = true <-> x = [] /\ y = [].
Proof.
  unfold sameMaps. split.
  - intros H. apply andb_prop in H as [H1 H2]. apply Nat.eqb_eq in H1. unfold mapOf in H1. rewrite !combine_length, !seq_length, !map_length, !Nat.min_id in H1.
    destruct x as [|[k a] x]; [destruct y; [auto|discriminate]|]. exfalso. cbn [mapOf length seq map List.combine forallb] in H2.
    apply andb_prop in H2 as [H2 _]. cbn [fst] in H2. destruct (find _ _) as [[kb b]|] eqn:Ef; [|discriminate].
    apply find_some in Ef as [Hin He]. cbn [fst] in He. apply Nat.eqb_eq in He. subst kb. unfold mapOf in Hin. apply in_combine_l in Hin. apply in_seq in Hin. cbn in Hin. lia.
  - intros [-> ->]. reflexivity.
Qed.
Lemma c62_maps_refuted : exists x : list (N * N), forall next, sameMaps N.eqb next x x = false.
Proof. exists [(1, 2)]%N. intros next. destruct (sameMaps _ _ _ _) eqn:E1; auto. apply c62_maps in E1 as [E1 _]. discriminate. Qed.

Section Replay.
Context {Key : Type} (keq : Key -> Key -> bool).

(** Disabled, the test runs once: no marker is a target, and replaying does nothing. *)
Lemma c63_disabled (p : prog (Key := Key)) : (forall k b, In (k, b) (fst (runDisabled p)) -> b = false) /\ forall t, snd (runDisabled p) <> Again t.
Proof.
  induction p as [| |k next IH|m next IH]; cbn; try (split; [intros ? ? []|discriminate]; fail); auto.
  destruct (IH false) as [H1 H2]. destruct (runDisabled (next false)) as [l o]. cbn [fst snd] in *. split; auto.
  intros k' b [H|H]; [congruence|eauto].
Qed.

Lemma quiet_once target latest p : quiet (Key := Key) p -> forall t, snd (runOnce keq target latest p) <> Again t.
Proof.
  intros H. revert latest. induction H as [| |k next H IH]; intros latest t; cbn; try discriminate.
  match goal with |- context [runOnce keq target (Some k) (next ?b)] => specialize (IH b (Some k) t); destruct (runOnce keq target (Some k) (next b)) as [l o] end. exact IH.
Qed.

(** A test that never replays runs once. *)
Lemma c63_quiet fuel p : quiet (Key := Key) p -> exists l o, replayable keq (S fuel) None None p = ([l], Some o).
Proof.
  intros H. cbn [replayable]. pose proof (quiet_once None None p H) as Hq. destruct (runOnce keq None None p) as [l o]. cbn [snd] in Hq.
  destruct o as [| |t]; eauto. destruct (Hq t). auto.
Qed.

(** The first run follows the answers false; the second one does, too, up to the first marker that is the target. *)
Lemma polite_first p : forall seen latest, polite seen p -> (seen = [] /\ latest = None \/ exists k, latest = Some k /\ In k seen) ->
  match snd (runOnce keq None latest p) with
  | Again (Some k) => In k seen \/ In (k, false) (fst (runOnce keq None latest p))
  | Again None => False
  | _ => True
  end.
Proof.
  induction p as [| |k next IH|m next IH]; intros seen latest Hp Hl; cbn [runOnce]; try exact Logic.I.
  - inversion Hp as [| |? ? ? H1 H2| |]; subst.
    assert (I1 := IH false (k :: seen) (Some k) H1 (or_intror (ex_intro _ k (conj eq_refl (or_introl eq_refl))))).
    destruct (runOnce keq None (Some k) (next false)) as [l o]. cbn [fst snd] in *. destruct o as [| |[k'|]]; auto.
    destruct I1 as [[->|I1]|I1]; auto; right; cbn; auto.
  - inversion Hp as [| | |? ? ? H1|? ? H1]; subst; cbn [fst snd]; auto. destruct Hl as [[-> _]|(k & -> & Hk)]; [destruct H1; auto|]. left. auto.
Qed.
Lemma polite_runs p t : (forall k, keq k k = true) -> forall seen latest, polite seen p -> (seen = [] /\ latest = None \/ exists k, latest = Some k /\ In k seen) ->
  match snd (runOnce keq None latest p) with
  | Again (Some k) => In k seen \/ In (k, false) (fst (runOnce keq None latest p))
  | Again None => False
  | _ => True
  end /\
  ((forall k, In k seen -> keq k t = false) ->
   (exists t', snd (runOnce keq (Some t) latest p) = Again t') ->
   snd (runOnce keq (Some t) latest p) = snd (runOnce keq None latest p) /\ forall k b, In (k, b) (fst (runOnce keq None latest p)) -> keq k t = false).
Proof.
  intros Hrefl. induction p as [| |k next IH|m next IH]; intros seen latest Hp Hl; cbn [runOnce].
  - split; [exact Logic.I|]. intros _ [t' Ht]. discriminate.
  - split; [exact Logic.I|]. intros _ [t' Ht]. discriminate.
  - inversion Hp as [| |? ? ? H1 H2| |]; subst.
    assert (Hl' : k :: seen = [] /\ Some k = None \/ exists k0, Some k = Some k0 /\ In k0 (k :: seen)) by (right; exists k; split; [auto|left; auto]).
    destruct (IH false (k :: seen) (Some k) H1 Hl') as [I1 I2]. split.
    + destruct (runOnce keq None (Some k) (next false)) as [l o]. cbn [fst snd] in *. destruct o as [| |[k'|]]; auto.
      destruct I1 as [[->|I1]|I1]; auto; right; cbn; auto.
    + intros Hseen. destruct (keq k t) eqn:Ek.
      * intros [t' Ht]. exfalso. pose proof (quiet_once (Some t) (Some k) (next true) H2 t') as Hq. destruct (runOnce keq (Some t) (Some k) (next true)). auto.
      * intros [t' Ht]. destruct I2 as [I2 I3].
        { intros k' [<-|Hk']; auto. }
        { exists t'. destruct (runOnce keq (Some t) (Some k) (next false)). auto. }
        destruct (runOnce keq (Some t) (Some k) (next false)) as [l o], (runOnce keq None (Some k) (next false)) as [l' o']. cbn [fst snd] in *.
        split; auto. intros k' b [Hk'|Hk']; [congruence|eauto].
  - inversion Hp as [| | |? ? ? H1|? ? H1]; subst.
    + cbn [fst snd]. split; [left; exact H1|]. intros _ _. split; auto. intros ? ? [].
    + destruct Hl as [[-> _]|(k & -> & Hk)]; [destruct H1; auto|]. cbn [fst snd]. split; [left; auto|]. intros _ _. split; auto. intros ? ? [].
Qed.

Lemma polite_latest_any p target latest : polite (Key := Key) [] p -> runOnce keq target latest p = runOnce keq target None p.
Proof. intros H. inversion H as [| | | |? ? H1]; subst; try reflexivity. destruct H1. auto. Qed.
(** A test that replays only to markers of the same run, and not again once it has seen the target, runs at most twice; the second
    run meets the target. *)
Lemma c63_polite fuel p : (forall k, keq k k = true) -> polite [] p ->
  (exists l o, replayable keq (S (S fuel)) None None p = ([l], Some o)) \/
  (exists l k l' o, replayable keq (S (S fuel)) None None p = ([l; l'], Some o) /\ In (k, false) l /\ runOnce keq None None p = (l, Again (Some k)) /\ exists k', In (k', true) l' /\ keq k' k = true).
Proof.
  intros Hrefl Hp. cbn [replayable]. destruct (runOnce keq None None p) as [l o] eqn:E1. destruct o as [| |t]; try (left; eauto; fail).
  assert (Hl : @nil Key = [] /\ @None Key = None \/ exists k, @None Key = Some k /\ In k []) by (left; auto).
  destruct t as [k|].
  - destruct (polite_runs p k Hrefl [] None Hp Hl) as [I1 I2]. rewrite E1 in I1, I2. cbn [fst snd] in I1, I2. destruct I1 as [[]|I1].
    right. rewrite (polite_latest_any p _ (latestAfter None l) Hp). destruct (runOnce keq (Some k) None p) as [l' o'] eqn:E2. cbn [snd] in I2.
    assert (Ho : forall t', o' <> Again t').
    { intros t' ->. destruct I2 as [_ I2]; [intros ? []|eauto|]. specialize (I2 k false I1). rewrite Hrefl in I2. discriminate. }
    assert (Hk : exists k', In (k', true) l' /\ keq k' k = true).
    { destruct (existsb snd l') eqn:Ex.
      - apply existsb_exists in Ex as ([k' b] & Hin & Hb). cbn in Hb. subst b. exists k'. split; auto.
        assert (H : forall p latest k' , In (k', true) (fst (runOnce keq (Some k) latest p)) -> keq k' k = true).
        { clear. induction p as [| |q next IH|m next IH]; intros latest k'; cbn; try (intros []; fail).
          - destruct (runOnce keq (Some k) (Some q) (next (keq q k))) as [l o] eqn:E1. cbn. intros [H|H]; [congruence|].
            apply (IH (keq q k) (Some q)). rewrite E1. exact H.
          - destruct m; intros []. }
        apply (H p None). rewrite E2. exact Hin.
      - exfalso. assert (Hf : forall p latest, (forall b, In b (map snd (fst (runOnce keq (Some k) latest p))) -> b = false) ->
            runOnce keq (Some k) latest p = runOnce keq None latest p).
        { clear. induction p as [| |q next IH|m next IH]; intros latest; cbn; auto. destruct (keq q k) eqn:Eq.
          - intros H. destruct (runOnce keq (Some k) (Some q) (next true)) as [l o]. specialize (H true (or_introl eq_refl)). discriminate.
          - specialize (IH false (Some q)). intros H. rewrite IH; auto. intros b Hb. apply H. destruct (runOnce keq (Some k) (Some q) (next false)). right. auto. }
        rewrite (Hf p None) in E2.
        + rewrite E1 in E2. injection E2 as <- <-. apply (Ho (Some k)). auto.
        + rewrite E2. cbn [fst]. intros b Hb. destruct b; auto. apply in_map_iff in Hb as (x & Hx & Hin).
          assert (existsb snd l' = true) by (apply existsb_exists; eauto). congruence. }
    exists l, k, l', o'. destruct o' as [| |t']; [| |destruct (Ho t'); auto]; auto.
  - exfalso. pose proof (polite_first p [] None Hp Hl) as I1. rewrite E1 in I1. exact I1.
Qed.

(** The key of a marker does not depend on where it is set: markers of two places with the same arguments are the same marker. So the
    first of them is taken for the target if the test replays to the second. *)
Lemma c63_places_refuted {S A} (callersItself inMark replayerMark c1 c2 : S) (args : A) :
  markerKey (stackAt callersItself inMark replayerMark c1) args = markerKey (stackAt callersItself inMark replayerMark c2) args.
Proof. reflexivity. Qed.
Lemma c63_confused (k : Key) fuel : keq k k = true -> replayable keq (Datatypes.S (Datatypes.S fuel)) None None (PMark k (fun b1 => if b1 then PEnd else PMark k (fun _ => PReplay None PEnd))) =
  ([[(k, false); (k, false)]; [(k, true)]], Some Ended).
Proof. intros H. cbn. rewrite H. reflexivity. Qed.

(** But a test that replays to the marker at which it fails, whenever it fails there, never ends: this is what branch_test.go:25-36 does. *)
Lemma c63_refuted (k : Key) : forall fuel, snd (replayable keq fuel None None (PMark k (fun _ => PReplay (Some k) PEnd))) = None.
Proof.
  intros fuel. generalize (@None Key) at 2. generalize (@None Key). induction fuel as [|fuel IH]; intros t latest; cbn; auto. specialize (IH (Some k) (Some k)).
  unfold latestAfter. cbn. destruct (replayable keq fuel (Some k) (Some k) _). exact IH.
Qed.
End Replay.

Section Packer.
Context {E : Env} {EO : EnvOk E} {T : Type} {K : Key T} {vok : T -> Prop} {KO : KeyOk K vok}.
Local Opaque maxTreeDepth fanout fb.

Lemma loop_ext {S} (f f' : nat -> S -> res (bool * Z * S)) order : (forall i s, f i s = f' i s) -> forall acc s, par_loop f order acc s = par_loop f' order acc s.
Proof. intros H. induction order as [|i order IH]; intros acc s; cbn [par_loop]; auto. rewrite H. destruct (f' i s) as [[[[] m] s']| |]; cbn [bind]; auto. Qed.

(** Where nothing is parallel, the depth a comparison is started with does not matter. *)
Lemma equal_depth fuel (eq : T -> T -> bool) : forall g n n2 d d', (g_limit g <= 0)%Z -> equal fuel g eq n n2 d = equal fuel g eq n n2 d'.
Proof.
  induction fuel as [|fuel IH]; intros g n n2 d d' Hg; cbn [equal]; auto. destruct n, n2; auto. destruct (_ =? _)%N; auto. f_equal.
  unfold parallel, par_order. replace (Z.of_nat d <? g_limit g)%Z with false by (symmetry; apply Z.ltb_ge; lia).
  replace (Z.of_nat d' <? g_limit g)%Z with false by (symmetry; apply Z.ltb_ge; lia). apply loop_ext. intros i s.
  destruct (child _ i); auto. destruct (child _ i); auto. rewrite (IH (g_sub i g) _ _ (S d) (S d')); auto.
Qed.

Lemma nonempty d n : wf vok d n -> (1 <= length (elems n))%nat.
Proof. intros H. inversion H; subst; try (cbn; lia); try lia. Qed.
Lemma equalPacker_spec (eq : T -> T -> bool) d : (forall a b, vok a -> vok b -> eq a b = true -> veq a b = true) -> forall p q : list (option (node T)),
  length p = length q -> (forall i n, nth_error p i = Some (Some n) -> wf vok (S d) n) -> (forall i n, nth_error q i = Some (Some n) -> wf vok (S d) n) ->
  exists b, equalPacker treeFuel eq p q = Ok b /\ (b = true <-> forall i, eqv eq (elemso (child p i)) (elemso (child q i))).
Proof.
  intros Heq. assert (Hnil : eqv eq [] []) by (split; intros e []).
  induction p as [|a p IH]; intros [|b q] Hl Hp Hq; try discriminate.
  - exists true. split; auto. split; auto. intros _ i. destruct i; exact Hnil.
  - destruct (IH q) as (r & E1 & Hr); [cbn in Hl; lia|intros i; apply (Hp (S i))|intros i; apply (Hq (S i))|].
    assert (Hsplit : (forall i, eqv eq (elemso (child (a :: p) i)) (elemso (child (b :: q) i))) <-> eqv eq (elemso a) (elemso b) /\ forall i, eqv eq (elemso (child p i)) (elemso (child q i))).
    { split; [intros H; split; [exact (H 0%nat)|intros i; exact (H (S i))]|]. intros [H1 H2] [|i]; [exact H1|exact (H2 i)]. }
    destruct a as [a|], b as [b|]; cbn [equalPacker].
    + destruct (equal_wf (vok := vok) eq Heq treeFuel NonParallel (S d) a b) as (x & E2 & Hx); auto.
      * apply (Hp 0%nat). reflexivity.
      * apply (Hq 0%nat). reflexivity.
      * unfold fuelBin, treeFuel. lia.
      * rewrite (equal_depth _ _ _ _ _ 0 (S d)) by (cbn; lia). rewrite E2. cbn [bind]. destruct x.
        -- exists r. split; auto. rewrite Hsplit, Hr. cbn [elemso]. tauto.
        -- exists false. split; auto. split; [discriminate|]. intros H. apply Hx. exact (H 0%nat).
    + exists false. split; auto. split; [discriminate|]. intros H. destruct (H 0%nat) as [H1 _]. cbn in H1.
      assert (Hn := nonempty (S d) a (Hp 0%nat a eq_refl)).
      destruct (elems a) as [|e l]; [cbn in Hn; lia|]. destruct (H1 e) as (f & [] & _). left. auto.
    + exists false. split; auto. split; [discriminate|]. intros H. destruct (H 0%nat) as [_ H1]. cbn in H1.
      assert (Hn := nonempty (S d) b (Hq 0%nat b eq_refl)).
      destruct (elems b) as [|e l]; [cbn in Hn; lia|]. destruct (H1 e) as (f & [] & _). left. auto.
    + exists r. split; auto. rewrite Hsplit, Hr. cbn [elemso]. tauto.
Qed.

(** Of two branches of tries, EqualPacker accepts those with the same elements. *)
Lemma c62_packers (eq : T -> T -> bool) d m1 d1 m2 d2 : (forall a b, vok a -> vok b -> eq a b = true -> veq a b = true) ->
  wf vok d (Branch m1 d1) -> wf vok d (Branch m2 d2) ->
  exists b, equalPacker treeFuel eq d1 d2 = Ok b /\ (b = true <-> eqv eq (elems (Branch m1 d1)) (elems (Branch m2 d2))).
Proof.
  intros Heq Hw1 Hw2. pose proof (wf_allok _ _ Hw1) as Hok1. pose proof (wf_allok _ _ Hw2) as Hok2. rewrite !elems_branch in *.
  inversion Hw1 as [| | |? ? ? Hd1 Hlen1 Hm1 Hch1 Hp1 Hl1]; subst. inversion Hw2 as [| | |? ? ? Hd2 Hlen2 Hm2 Hch2 Hp2 Hl2]; subst.
  destruct (equalPacker_spec eq d Heq d1 d2) as (b & E1 & Hb); [congruence| | |].
  - intros i n En. apply (Hch1 i). unfold child. apply nth_error_nth with (d := None) in En. exact En.
  - intros i n En. apply (Hch2 i). unfold child. apply nth_error_nth with (d := None) in En. exact En.
  - exists b. split; auto. rewrite Hb.
    assert (Hin1 : forall i e, In e (elemso (child d1 i)) -> vok e) by (intros i e He; apply Hok1; apply in_flat_map_child; eauto).
    assert (Hin2 : forall i e, In e (elemso (child d2 i)) -> vok e) by (intros i e He; apply Hok2; apply in_flat_map_child; eauto).
    split.
    + intros H. split.
      * intros e He. apply in_flat_map_child in He as (i & He). destruct (proj1 (H i) e He) as (f & Hff & Hq). exists f; split; auto. apply in_flat_map_child; eauto.
      * intros f Hff. apply in_flat_map_child in Hff as (i & Hff). destruct (proj2 (H i) f Hff) as (e & He & Hq). exists e; split; auto. apply in_flat_map_child; eauto.
    + intros [H1 H2] i. split.
      * intros e He. destruct (H1 e) as (f & Hff & Hq); [apply in_flat_map_child; eauto|]. exists f. split; auto. apply in_flat_map_child in Hff as (j & Hj).
        replace i with j; auto. rewrite <- (Hp1 i e He), <- (Hp2 j f Hj). symmetry. apply veq_digit; eauto.
      * intros f Hff. destruct (H2 f) as (e & He & Hq); [apply in_flat_map_child; eauto|]. exists e. split; auto. apply in_flat_map_child in He as (j & Hj).
        replace i with j; auto. rewrite <- (Hp2 i f Hff), <- (Hp1 j e Hj). apply veq_digit; eauto.
Qed.

End Packer.
