(** * SpecGroups: the laws of SetGroupBy (C82). *)
From Coq Require Import Permutation.
From Verif Require Import Base Bits Env EnvFacts Node NodeWf NodeBin NodeBin2 NodeUn Iter Tree TreeFacts SetApi SetFacts MapApi MapFacts GroupFacts Reach Spec SpecSet SpecMap SpecLaws SpecNary SpecKeys.

Section Sums.
Context {A X : Type}.
(** How many elements the groups have together, if each element is in exactly one. *)
Lemma sum_zero (p : X -> bool) ks : (forall k, In k ks -> p k = false) -> length (filter p ks) = 0.
Proof. induction ks as [|k ks IH]; intros H; auto. cbn. rewrite (H k (or_introl eq_refl)). apply IH. intros; apply H; right; auto. Qed.
Lemma sum_groups (p : X -> A -> bool) ks ls : (forall e, In e ls -> length (filter (fun k => p k e) ks) = 1) ->
  fold_right (fun k n => length (filter (p k) ls) + n) 0 ks = length ls.
Proof.
  induction ls as [|e ls IH]; intros H.
  - clear H. induction ks as [|k ks IH]; auto.
  - cbn [length]. rewrite <- IH by (intros; apply H; right; auto). specialize (H e (or_introl eq_refl)). clear IH.
    assert (G : fold_right (fun k n => length (filter (p k) (e :: ls)) + n) 0 ks = length (filter (fun k => p k e) ks) + fold_right (fun k n => length (filter (p k) ls) + n) 0 ks).
    { clear H. induction ks as [|k ks IH]; auto. cbn [fold_right]. rewrite IH. cbn [filter]. destruct (p k e); cbn [length]; lia. }
    rewrite G, H. reflexivity.
Qed.
End Sums.

Section Groups.
Context {E : Env} {HE : EnvOk E} {T X : Type} {K : Key T} {KX : Key X} {vok : T -> Prop} {kok : X -> Prop} {KO : KeyOk K vok} {KOX : KeyOk KX kok}.
Local Opaque maxTreeDepth fanout fb.

Lemma unequal_NoDup {A} {KA : Key A} {ok : A -> Prop} {KOA : KeyOk KA ok} (l : list A) : (forall e, In e l -> ok e) -> Unequal l -> NoDup l.
Proof.
  intros Ho Hu. apply NoDup_nth_error. intros i j Hi Heq. destruct (Nat.eq_dec i j) as [->|Hn]; auto. exfalso.
  destruct (nth_error l i) as [x|] eqn:Ex; [|apply nth_error_None in Ex; lia]. symmetry in Heq.
  pose proof (Hu i j x x Ex Heq Hn) as Hf. rewrite (veq_refl (vok := ok)) in Hf; [discriminate|]. apply Ho. apply nth_error_In in Ex. auto.
Qed.
Lemma unequal_one (ks : list X) (k : X) : (forall j, In j ks -> kok j) -> Unequal ks -> kok k -> (exists j, In j ks /\ veq k j = true) -> length (filter (fun j => veq k j) ks) = 1.
Proof.
  intros Ho Hu Hk (j & Hj & Hq). apply in_split in Hj as (l1 & l2 & ->). rewrite filter_app, app_length. cbn [filter]. rewrite Hq. cbn [length].
  assert (Z : forall i, In i l1 \/ In i l2 -> veq k i = false).
  { intros i Hi. destruct (veq k i) eqn:Hqi; auto. exfalso.
    assert (Hoi : kok i) by (apply Ho; apply in_or_app; destruct Hi; [left|right; right]; auto). assert (Hoj : kok j) by (apply Ho; apply in_or_app; right; left; auto).
    assert (Hij : veq i j = true) by (apply (veq_trans (vok := kok) _ k j); auto; apply (veq_sym (vok := kok)); auto).
    assert (Hji : veq j i = true) by (apply (veq_sym (vok := kok)); auto).
    destruct Hi as [Hi|Hi]; apply In_nth_error in Hi as (n & Hn).
    - assert (veq i j = false); [|congruence]. apply (Hu n (length l1) i j); [rewrite nth_error_app1; auto; apply nth_error_Some; congruence|rewrite nth_error_app2, Nat.sub_diag; auto|].
      assert (n < length l1) by (apply nth_error_Some; congruence). lia.
    - assert (veq j i = false); [|congruence]. apply (Hu (length l1) (length l1 + S n) j i); [rewrite nth_error_app2, Nat.sub_diag; auto| |lia].
      rewrite nth_error_app2 by lia. replace (length l1 + S n - length l1) with (S n) by lia. exact Hn. }
  rewrite !sum_zero by (intros; apply Z; auto). reflexivity.
Qed.

Section One.
Variables (s : set T) (key : T -> X).
Hypotheses (Hs : SetReach vok s) (Hkey : forall v, vok v -> kok (key v)).

Lemma s_ok e : Holds s e -> vok e.
Proof. intros He. apply (holds_ok (vok := vok) s e); auto. apply sreach_ok; auto. Qed.

(** The entries of the result: the keys are those of the elements, no two equal, and each group has the elements with its key. *)
Lemma groups_list m l : s_groupBy s key = Ok m -> m_entries m = Ok l ->
  MapReach kok (sok vok) m /\ Unequal (map fst l) /\
  (forall k g, In (k, g) l -> kok k /\ SetReach vok g /\ (forall e, Holds g e <-> Holds s e /\ veq (key e) k = true)) /\
  (forall e, Holds s e -> exists k g, In (k, g) l /\ veq (key e) k = true).
Proof.
  intros Em El. assert (Rm : MapReach kok (sok vok) m) by (apply (mr_groupBy T K vok X KX kok s key m); auto).
  pose proof (mreach_ok m Rm) as Hm. destruct (answers_mget m (mget m) Hm (fun _ _ => eq_refl)) as (HG & l' & El' & (L1 & L2 & L3) & _). assert (l' = l) as -> by congruence.
  destruct (c12_groupBy (uok := kok) s key Hs (fun e He => Hkey e (s_ok e He))) as (m' & Em' & HK). assert (m' = m) as -> by congruence.
  split; [auto|]. split; [exact L2|]. split.
  - intros k g Hi. pose proof (L1 _ Hi) as Hk. cbn [fst] in Hk. split; auto. assert (Hg : mget m k = Some g) by (apply L3; auto; exists k; split; auto; apply veq_refl; auto).
    assert (Hget : m_get m k = Ok (Some g)) by (rewrite (HG k Hk), Hg; auto). split; [apply (sr_value X T KX K kok vok m k g); auto|].
    destruct (HK k Hk) as [(g' & Eg & _ & Hh & _)|[Eg _]]; [|congruence]. assert (g' = g) as -> by congruence. exact Hh.
  - intros e He. pose proof (Hkey e (s_ok e He)) as Hk. destruct (HK (key e) Hk) as [(g & Eg & _)|[_ Hn]].
    + rewrite (HG _ Hk) in Eg. assert (Hg : mget m (key e) = Some g) by congruence. apply L3 in Hg as (k' & Hi & Hq); auto. exists k', g. split; auto.
      apply (veq_sym (vok := kok)); auto. apply (L1 _ Hi).
    + pose proof (Hn e He) as Hf. rewrite (veq_refl (vok := kok)) in Hf; [discriminate|auto].
Qed.
End One.

(** Every group is what Where selects for its key. *)
Lemma c82_where (s : set T) (key : T -> X) m k g : SetReach vok s -> (forall v, vok v -> kok (key v)) -> s_groupBy s key = Ok m -> kok k -> m_get m k = Ok (Some g) ->
  exists r, s_where s (fun e => veq (key e) k) = Ok r /\ s_equal g r = Ok true /\ s_isSubsetOf g s = Ok true /\ s_isEmpty g = false.
Proof.
  intros Hs Hkey Em Hk Eg. assert (Rm : MapReach kok (sok vok) m) by (apply (mr_groupBy T K vok X KX kok s key m); auto).
  assert (Rg : SetReach vok g) by (apply (sr_value X T KX K kok vok m k g); auto).
  destruct (c12_groupBy (uok := kok) s key Hs (fun e He => Hkey e (s_ok s Hs e He))) as (m' & Em' & HK). assert (m' = m) as -> by congruence.
  destruct (HK k Hk) as [(g' & Eg' & (e0 & He0 & Hq0) & Hh & Ag)|[Eg' _]]; [|congruence]. assert (g' = g) as -> by congruence.
  destruct (c08_where s (fun e => veq (key e) k) Hs) as (r & l & Er & _ & _ & Ar & _). exists r. split; auto.
  assert (Rr : SetReach vok r) by (apply (sr_where _ _ _ s (fun e => veq (key e) k)); auto). split; [|split].
  - apply (equal_has (vok := vok)); auto. intros w Hw. rewrite (has_answers (vok := vok) g _ w Ag Hw), (has_answers (vok := vok) r _ w Ar Hw).
    split; intros (e & H1 & H2 & H3); exists e; auto.
  - apply (subset_has (vok := vok)); auto. intros w Hw. rewrite (has_answers (vok := vok) g _ w Ag Hw). intros (e & H1 & H2 & H3).
    destruct (c01_has s w Hs Hw) as (b & Eb & Hb). unfold Has. rewrite Eb. f_equal. apply Hb. exists e. auto.
  - destruct (s_isEmpty g) eqn:Hz; auto. exfalso. pose proof (s_ok s Hs e0 He0) as Ho.
    apply (proj1 (proj1 (proj2 (c03_count g Rg))) Hz e0 Ho). apply (has_answers (vok := vok) g _ e0 Ag Ho). exists e0. split; auto. split; auto. apply veq_refl; auto.
Qed.

(** The keys are the images of the elements: Keys of SetGroupBy is SetMap. *)
Lemma c82_keys (s : set T) (key : T -> X) m : SetReach vok s -> (forall v, vok v -> kok (key v)) -> s_groupBy s key = Ok m ->
  exists ks r, m_keys m = Ok ks /\ s_map s key = Ok r /\ s_equal ks r = Ok true.
Proof.
  intros Hs Hkey Em. assert (Rm : MapReach kok (sok vok) m) by (apply (mr_groupBy T K vok X KX kok s key m); auto).
  destruct (c24_keys (ZV := {| zero := s_empty |}) m Rm) as (ks & Eks & Aks & _). destruct (c09_map (uok := kok) s key Hs) as (r & Er & Ar & _); [intros e He; apply Hkey, (s_ok s Hs e He)|].
  exists ks, r. split; [exact Eks|]. split; auto.
  assert (Rk : SetReach kok ks) by (apply (sr_keys X (set T) KX {| zero := s_empty |} kok (sok vok) m); auto). assert (Rr : SetReach kok r) by (apply (sr_map T K vok X KX kok s key r); auto).
  apply (equal_has (vok := kok)); auto. intros k Hk. rewrite (has_answers (vok := kok) ks _ k Aks Hk), (has_answers (vok := kok) r _ k Ar Hk).
  destruct (c12_groupBy (uok := kok) s key Hs (fun e He => Hkey e (s_ok s Hs e He))) as (m' & Em' & HK). assert (m' = m) as -> by congruence. unfold Maps.
  destruct (HK k Hk) as [(g & Eg & He & _)|[Eg Hn]]; split; auto.
  - intros _. exists g. exact Eg.
  - intros (v & Hv). assert (Hx : Ok (Some v) = Ok None) by (transitivity (m_get m k); [symmetry; exact Hv|exact Eg]). discriminate.
  - intros (e & He & Hq). rewrite (Hn e He) in Hq. discriminate.
Qed.

(** The groups have all elements: their Counts add up, and their Union is the set. *)
Lemma c82_count (s : set T) (key : T -> X) m l : SetReach vok s -> (forall v, vok v -> kok (key v)) -> s_groupBy s key = Ok m -> m_entries m = Ok l ->
  s_count s = fold_right Z.add 0%Z (map (fun kg => s_count (snd kg)) l).
Proof.
  intros Hs Hkey Em El. destruct (groups_list s key Hs Hkey m l Em El) as (Rm & Hu & Hg & Hall).
  destruct (c03_count s Hs) as ((_ & ls & Els & (S1 & S2 & _) & ->) & _). assert (Ns : NoDup ls) by (apply (unequal_NoDup (ok := vok)); auto).
  assert (Hin : forall e, In e ls <-> Holds s e) by (intros e; split; [exists ls; auto|intros (l' & El' & He); congruence]).
  assert (Hks : forall k, In k (map fst l) -> kok k) by (intros k Hk; apply in_map_iff in Hk as ((k' & g) & <- & Hi); apply (Hg k' g Hi)).
  rewrite <- (sum_groups (fun k e => veq (key e) k) (map fst l) ls).
  - clear Hu Hall Hks. assert (HC : forall kg, In kg l -> s_count (snd kg) = Z.of_nat (length (filter (fun e => veq (key e) (fst kg)) ls))).
    { intros (k & g) Hi. destruct (Hg k g Hi) as (Hk & Rg & Hh). cbn [fst snd]. destruct (c03_count g Rg) as ((_ & lg & Elg & (G1 & G2 & _) & ->) & _). f_equal.
      apply Permutation_length. apply NoDup_Permutation; [apply (unequal_NoDup (ok := vok)); auto|apply NoDup_filter; auto|]. intros e. rewrite filter_In, Hin. rewrite <- Hh.
      split; [exists lg; auto|intros (l' & El' & He); congruence]. }
    clear - HC. induction l as [|kg l IH]; auto. cbn [map fold_right]. rewrite Nat2Z.inj_add, IH by (intros; apply HC; right; auto). rewrite (HC kg (or_introl eq_refl)). reflexivity.
  - intros e He. apply Hin in He. apply (unequal_one (map fst l) (key e)); auto; [apply Hkey, (s_ok s Hs e He)|].
    destruct (Hall e He) as (k & g & Hi & Hq). exists k. split; auto. apply in_map_iff. exists (k, g). auto.
Qed.
Lemma c82_union (s : set T) (key : T -> X) m l u : SetReach vok s -> (forall v, vok v -> kok (key v)) -> s_groupBy s key = Ok m -> m_entries m = Ok l ->
  s_unionN (map snd l) = Ok u -> s_equal u s = Ok true.
Proof.
  intros Hs Hkey Em El Eu. destruct (groups_list s key Hs Hkey m l Em El) as (Rm & _ & Hg & Hall).
  assert (HR : forall g, In g (map snd l) -> SetReach vok g) by (intros g Hi; apply in_map_iff in Hi as ((k & g') & <- & Hi); apply (Hg k g' Hi)).
  apply (equal_has (vok := vok)); auto; [apply (unionN_reach (map snd l)); auto|]. intros w Hw. rewrite (unionN_has (vok := vok) (map snd l) u w) by auto.
  assert (HH : forall t, SetReach vok t -> Has t w <-> exists e, Holds t e /\ veq e w = true).
  { intros t Ht. destruct (c01_has t w Ht Hw) as (b & Eb & Hb). unfold Has. rewrite Eb, <- Hb. split; congruence. }
  rewrite (HH s Hs). split.
  - intros (g & Hi & Hh). apply (HH g (HR g Hi)) in Hh. destruct Hh as (e & He & Hq). apply in_map_iff in Hi as ((k & g') & Hgg & Hi). cbn [snd] in Hgg. subst g'.
    destruct (Hg k g Hi) as (_ & _ & Hh). exists e. split; auto. apply Hh; auto.
  - intros (e & He & Hq). destruct (Hall e He) as (k & g & Hi & Hk). exists g. split; [apply in_map_iff; exists (k, g); auto|]. destruct (Hg k g Hi) as (_ & Rg & Hh).
    apply (HH g Rg). exists e. split; auto. apply Hh. auto.
Qed.
End Groups.
